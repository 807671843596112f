(** Interpolated kernels: /repo/lib/fiber/hermite_interpolator.hpp,
    /repo/lib/fiber/initialize_interpolator_for_modified_helmholtz_3d_kernels.cpp,
    /repo/lib/grid/max_distance.cpp, /repo/lib/grid/grid.cpp:73-92.
    Exact real arithmetic; ValueType real (the evaluation is linear in the data, complex
    data are two real interpolators); release build (assert() does nothing). *)
From Coq Require Import Reals ZArith List.
Import ListNotations.
From Verif Require Import Base ArrayModel BoxModel.
Set Implicit Arguments.
Local Open Scope R_scope.

(** hermite_interpolator.hpp:64-69 *)
Record herm := Herm { h_start : R; h_end : R; h_n : nat; h_interval : R; h_vals : list R; h_ders : list R }.
(** 22-41 *)
Definition initialize (start stop : R) (values derivatives : list R) : res herm :=
  if negb (length values =? length derivatives)%nat then Throws
  else if (length values <? 2)%nat then Throws
  else if leb stop start then Throws
  else Ok (Herm start stop (length values) ((stop - start) / INR (length values - 1)) values derivatives).
(** std::modf: integral part (towards zero), fractional part *)
Definition trunc (y : R) : Z := if Rle_dec 0 y then Int_part y else (- Int_part (- y))%Z.
Definition modf (y : R) : R * Z := (y - IZR (trunc y), trunc y).
(** vector::operator[] *)
Definition at_ (v : list R) (n : Z) : res R :=
  if (n <? 0)%Z then Undefined else match nth_error v (Z.to_nat n) with Some x => Ok x | None => Undefined end.
(** 43-61 *)
Definition evaluate (s : herm) (x : R) : res R :=
  let '(t, n) := modf ((x - h_start s) / h_interval s) in
  bind (at_ (h_vals s) n) (fun f_1 => bind (at_ (h_vals s) (n + 1)) (fun f_2 =>
  bind (at_ (h_ders s) n) (fun d1_ => bind (at_ (h_ders s) (n + 1)) (fun d2_ =>
  let d_1 := d1_ * h_interval s in let d_2 := d2_ * h_interval s in
  let Delta := f_2 - f_1 in
  let Delta_1 := d_1 - Delta in let Delta_2 := d_2 - Delta in
  let c_2 := - (Delta_1 + Delta_1 + Delta_2) in
  let c_3 := Delta_1 + Delta_2 in
  Ok (f_1 + t * (d_1 + t * (c_2 + t * c_3))))))).

(** initialize_interpolator...cpp:27-44; waveNumber real; maxDist / infinity = 0 when it is 0;
    the conversion to int is assumed to fit *)
Definition pointCount (k maxDist : R) (pts : Z) : Z :=
  trunc ((if Req_EM_T k 0 then 0 else maxDist / (2 * PI / Rabs k)) * IZR pts + 1).
Definition nodeDist (maxDist : R) (n : Z) (i : nat) : R := 0 + (maxDist - 0) * INR i / IZR (n - 1).
Definition initializeKernel (k maxDist : R) (pts : Z) : res herm :=
  let n := pointCount k maxDist pts in
  if (n <? 0)%Z then Throws                         (* std::vector(pointCount) *)
  else let dists := map (nodeDist maxDist n) (seq 0 (Z.to_nat n)) in
       initialize 0 maxDist (map (fun d => exp (- k * d)) dists) (map (fun d => - k * exp (- k * d)) dists).

(** grid.cpp:73-92: bounding box of the vertices; no vertices: Eigen's minCoeff of an empty matrix *)
Definition minPoint (p q : point) : point := (Rmin (px p) (px q), Rmin (py p) (py q), Rmin (pz p) (pz q)).
Definition maxPoint (p q : point) : point := (Rmax (px p) (px q), Rmax (py p) (py q), Rmax (pz p) (pz q)).
Definition boundingBox (vertices : list point) : option (point * point) :=
  match vertices with
  | [] => None
  | v :: r => Some (fold_left minPoint r v, fold_left maxPoint r v)
  end.
(** max_distance.cpp:42-74: the corners of a box, in the order of the columns *)
Definition boxCorners (lo up : point) : list point :=
  [lo; (px up, py lo, pz lo); (px lo, py up, pz lo); (px lo, py lo, pz up);
   (px lo, py up, pz up); (px up, py lo, pz up); (px up, py up, pz lo); up].
(** 79-81 *)
Definition pointDistance (p q : point) : R :=
  sqrt ((px p - px q) * (px p - px q) + (py p - py q) * (py p - py q) + (pz p - pz q) * (pz p - pz q)).
(** 76-83: for i, for j > i *)
Fixpoint maxPair (points : list point) (result : R) : R :=
  match points with
  | [] => result
  | p :: r => maxPair r (fold_left (fun res q => Rmax (pointDistance p q) res) r result)
  end.
(** 30-86, dimWorld = 3 *)
Definition maxDistance (vertices1 vertices2 : list point) : option R :=
  match boundingBox vertices1, boundingBox vertices2 with
  | Some (lo1, up1), Some (lo2, up2) => Some (maxPair (boxCorners lo1 up1 ++ boxCorners lo2 up2) 0)
  | _, _ => None
  end.
