(** Model of the octree geometry, exact real arithmetic.
    /repo/lib/fmm/octree_impl.hpp, /repo/lib/grid/concrete_grid_view.hpp:132-151. *)
From Coq Require Import Reals NArith ZArith List.
Import ListNotations.
From Verif Require Import BoxModel FmmModel.
Local Open Scope R_scope.

(** octree_impl.hpp:21-31: m_lbound, width = largest extent, m_ubound = m_lbound + width.
    [xmin..zmax] is the grid's bounding box. *)
Record octGeom := { olo : point; ohi : point; ext : R }.
Definition mkOctGeom (lb ub : point) (extension : R) : octGeom :=
  let width := Rmax (Rmax (px ub - px lb) (py ub - py lb)) (pz ub - pz lb) in
  {| olo := lb; ohi := (px lb + width, py lb + width, pz lb + width); ext := extension |}.

(** octree_impl.hpp:115-127: the conversion to int truncates (towards zero, the argument
    is >= 0; overflow of int is not modelled), getNodesPerSide(m_levels) = 2^L. *)
Definition leafCoord (L : N) (lo hi p : R) : N :=
  Z.to_N (Z.min (Int_part (Rmax 0 ((p - lo) / (hi - lo)) * IZR (Z.of_N (getNodesPerSide L))))
                (Z.of_N (getNodesPerSide L) - 1)).
(** octree_impl.hpp:109-128; [None] = morton throws *)
Definition getLeafContainingPoint (o : octGeom) (L : N) (p : point) : option N :=
  morton (leafCoord L (px (olo o)) (px (ohi o)) (px p))
         (leafCoord L (py (olo o)) (py (ohi o)) (py p))
         (leafCoord L (pz (olo o)) (pz (ohi o)) (pz p)).

(** octree_impl.hpp:136-141 *)
Definition cubeWidth (o : octGeom) (level : N) : R :=
  (px (ohi o) - px (olo o)) / IZR (Z.of_N (N.shiftl 1 level)).
(** octree_impl.hpp:150-169 *)
Definition cubeLower (o : octGeom) (n level : N) : point :=
  let '(x, y, z) := deMorton n in let w := cubeWidth o level in
  (px (olo o) + IZR (Z.of_N x) * w, py (olo o) + IZR (Z.of_N y) * w, pz (olo o) + IZR (Z.of_N z) * w).
Definition cubeUpper (o : octGeom) (n level : N) : point :=
  let '(x, y, z) := deMorton n in let w := cubeWidth o level in
  (px (olo o) + IZR (Z.of_N x + 1) * w, py (olo o) + IZR (Z.of_N y + 1) * w, pz (olo o) + IZR (Z.of_N z + 1) * w).
(** octree_impl.hpp:171-187 *)
Definition extLower (o : octGeom) (n level : N) : point :=
  let l := cubeLower o n level in (px l - ext o, py l - ext o, pz l - ext o).
Definition extUpper (o : octGeom) (n level : N) : point :=
  let u := cubeUpper o n level in (px u + ext o, py u + ext o, pz u + ext o).

(** a triangle: its three corners *)
Definition tri := (point * point * point)%type.
Definition vsub (p q : point) : point := (px p - px q, py p - py q, pz p - pz q).
Definition norm (p : point) : R := sqrt (px p * px p + py p * py p + pz p * pz p).
Definition cross (a b : point) : point :=
  (py a * pz b - pz a * py b, pz a * px b - px a * pz b, px a * py b - py a * px b).
(** Dune's geometry().center() of a triangle *)
Definition centroid (t : tri) : point :=
  let '(p, q, r) := t in
  ((px p + px q + px r) / 3, (py p + py q + py r) / 3, (pz p + pz q + pz r) / 3).
(** concrete_grid_view.hpp:139-144 *)
Definition elementDiameter (t : tri) : R :=
  let '(p, q, r) := t in
  let a := vsub q p in let b := vsub r p in
  norm a * norm b * norm (vsub a b) / norm (cross a b).
(** concrete_grid_view.hpp:132-151 *)
Definition maximumElementDiameter (ts : list tri) : R :=
  fold_left (fun result t => if gtb (elementDiameter t) result then elementDiameter t else result) ts 0.
(** concrete_grid_view.hpp:113-130; [None]: the initial value infinity *)
Definition minimumElementDiameter (ts : list tri) : option R :=
  fold_left (fun result t => match result with
     | None => Some (elementDiameter t)
     | Some r => if gtb r (elementDiameter t) then Some (elementDiameter t) else Some r end) ts None.
(** octree.hpp:28 and octree_impl.hpp:36: RESIZE_FACTOR = 1.1 *)
Definition extensionSize (ts : list tri) : R := maximumElementDiameter ts * (11 / 10).
