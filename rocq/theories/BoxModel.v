(** Model of the bounding boxes (exact real arithmetic; no NaN, infinities or rounding).
    /repo/lib/hmat/bounding_box_impl.hpp, /repo/lib/common/bounding_box_helpers.hpp,
    /repo/lib/space/space_helper.cpp:95-112. *)
From Coq Require Import Reals Lra List.
Import ListNotations.
Local Open Scope R_scope.

(** hmat/bounding_box.hpp:53-55: m_boundingBoxData, m_maxDimension, m_diameter *)
Record hbox := HBox {
  d0 : R; d1 : R; d2 : R; d3 : R; d4 : R; d5 : R;
  maxDim : nat; diam : R }.
Definition point := (R * R * R)%type.
Definition px (p : point) := fst (fst p).
Definition py (p : point) := snd (fst p).
Definition pz (p : point) := snd p.

Definition gtb (x y : R) : bool := if Rlt_dec y x then true else false.
Definition leb (x y : R) : bool := if Rle_dec x y then true else false.

(** bounding_box_impl.hpp:52-70 *)
Definition computeGeometricData (a b c d e f : R) : hbox :=
  let e0 := b - a in let e1 := d - c in let e2 := f - e in
  let ext i := match i with O => e0 | 1%nat => e1 | _ => e2 end in
  let m1 := if gtb e1 e0 then 1%nat else 0%nat in
  let m2 := if gtb e2 (ext m1) then 2%nat else m1 in
  HBox a b c d e f m2 (sqrt (e0 * e0 + e1 * e1 + e2 * e2)).
(** 20-28 *)
Definition mkBox (xmin xmax ymin ymax zmin zmax : R) : hbox :=
  computeGeometricData xmin xmax ymin ymax zmin zmax.
(** 12-18: the default constructor; the parameters are numeric_limits<double>::max()
    and ::min() (the smallest POSITIVE normalised number). *)
Definition defaultBox (dblMax dblMin : R) : hbox :=
  mkBox dblMax dblMin dblMax dblMin dblMax dblMin.

(** 84-102 *)
Definition merge (s o : hbox) : hbox :=
  computeGeometricData (Rmin (d0 s) (d0 o)) (Rmax (d1 s) (d1 o)) (Rmin (d2 s) (d2 o))
                       (Rmax (d3 s) (d3 o)) (Rmin (d4 s) (d4 o)) (Rmax (d5 s) (d5 o)).

(** 104-135; [None] = std::invalid_argument *)
Definition divide (s : hbox) (dim : nat) (f : R) : option (hbox * hbox) :=
  match dim with
  | 0%nat => let v := d0 s + f * (d1 s - d0 s) in
         Some (computeGeometricData (d0 s) v (d2 s) (d3 s) (d4 s) (d5 s),
               computeGeometricData v (d1 s) (d2 s) (d3 s) (d4 s) (d5 s))
  | 1%nat => let v := d2 s + f * (d3 s - d2 s) in
         Some (computeGeometricData (d0 s) (d1 s) (d2 s) v (d4 s) (d5 s),
               computeGeometricData (d0 s) (d1 s) v (d3 s) (d4 s) (d5 s))
  | 2%nat => let v := d4 s + f * (d5 s - d4 s) in
         Some (computeGeometricData (d0 s) (d1 s) (d2 s) (d3 s) (d4 s) v,
               computeGeometricData (d0 s) (d1 s) (d2 s) (d3 s) v (d5 s))
  | _ => None
  end.
(** 137-140 *)
Definition divideMaxDimension (s : hbox) (f : R) : option (hbox * hbox) := divide s (maxDim s) f.

(** 142-150 *)
Definition contains (s : hbox) (p : point) : bool :=
  (leb (d0 s) (px p) && gtb (d1 s) (px p) && leb (d2 s) (py p) && gtb (d3 s) (py p)
   && leb (d4 s) (pz p) && gtb (d5 s) (pz p))%bool.

(** 161-210 *)
Definition cornerPoint (s : hbox) (i : nat) : point :=
  match i with
  | 0%nat => (d0 s, d2 s, d4 s) | 1%nat => (d1 s, d2 s, d4 s)
  | 2%nat => (d1 s, d3 s, d4 s) | 3%nat => (d0 s, d3 s, d4 s)
  | 4%nat => (d0 s, d2 s, d5 s) | 5%nat => (d1 s, d2 s, d5 s)
  | 6%nat => (d1 s, d3 s, d5 s) | 7%nat => (d0 s, d3 s, d5 s)
  | _ => (0, 0, 0)
  end.
(** 212-218 *)
Definition corners (s : hbox) : list point := map (cornerPoint s) (seq 0 8).

(** 234-242 *)
Definition intervalDistance (a1 b1 a2 b2 : R) : R :=
  if gtb a2 b1 then a2 - b1 else if gtb a1 b2 then a1 - b2 else 0.
(** 220-232 *)
Definition distance (s o : hbox) : R :=
  let x := intervalDistance (d0 s) (d1 s) (d0 o) (d1 o) in
  let y := intervalDistance (d2 s) (d3 s) (d2 o) (d3 o) in
  let z := intervalDistance (d4 s) (d5 s) (d4 o) (d5 o) in
  sqrt (0 + x * x + y * y + z * z).

(** 253-267 *)
Definition boundingBoxFromTriangleData (p q r : point) : hbox :=
  let mn a b c := Rmin (Rmin a b) c in let mx a b c := Rmax (Rmax a b) c in
  mkBox (mn (px p) (px q) (px r)) (mx (px p) (px q) (px r))
        (mn (py p) (py q) (py r)) (mx (py p) (py q) (py r))
        (mn (pz p) (pz q) (pz r)) (mx (pz p) (pz q) (pz r)).

(** block_cluster_tree_impl.hpp:214-230; the cluster diameter is a stored value *)
Definition strongAdmissibility (eta diam1 diam2 : R) (b1 b2 : hbox) : bool :=
  gtb (eta * distance b1 b2) (Rmin diam1 diam2).
Definition weakAdmissibility (b1 b2 : hbox) : bool := gtb (distance b1 b2) 0.

(** common/bounding_box.hpp: reference, lbound, ubound *)
Record bbox := BBox { reference : point; lbound : point; ubound : point }.
(** bounding_box_helpers.hpp:35-52 *)
Definition createBoundingBox (xmin ymin zmin xmax ymax zmax : R) : bbox :=
  BBox ((xmax - xmin) / 2, (ymax - ymin) / 2, (zmax - zmin) / 2) (xmin, ymin, zmin) (xmax, ymax, zmax).
(** bounding_box_helpers.hpp:60-72; [points] are the columns *)
Definition extendPoint (b : bbox) (p : point) : bbox :=
  BBox (reference b)
       (Rmin (px (lbound b)) (px p), Rmin (py (lbound b)) (py p), Rmin (pz (lbound b)) (pz p))
       (Rmax (px (ubound b)) (px p), Rmax (py (ubound b)) (py p), Rmax (pz (ubound b)) (pz p)).
Definition extendBoundingBox (b : bbox) (points : list point) : bbox :=
  fold_left extendPoint points b.
(** bounding_box_helpers.hpp:79-86 *)
Definition setReference (b : bbox) (p : point) : bbox := BBox p (lbound b) (ubound b).

(** space_helper.cpp:95-112: the bounding box of one global dof.  [localDofs] lists the
    corner points of the incident elements with the local dof index;
    [None]: no local dof (assertion), or local dof index without a corner. *)
Definition dofBoundingBox (maxCoord : R) (localDofs : list (list point * nat)) : option bbox :=
  let model := BBox (0,0,0) (maxCoord, maxCoord, maxCoord) (- maxCoord, - maxCoord, - maxCoord) in
  let b := fold_left (fun b ld => extendBoundingBox b (fst ld)) localDofs model in
  match localDofs with
  | [] => None
  | (corners, k) :: _ =>
    match nth_error corners k with
    | Some p => Some (setReference b p)
    | None => None
    end
  end.
