(** Regular sphere meshes: /repo/cython/bempp/core/grid/py_sphere.hpp (whole file),
    /repo/cython/bempp/core/grid/grid.pyx 354-425 (grid_from_sphere, which copies nodes and elements unchanged into arrays),
    /repo/python/bempp/api/shapes/shapes.py 110-131 (regular_sphere calls it with radius 1 and origin 0).
    Coordinates are exact reals.  [None]: an access outside of m_nodes, or a division by zero (a node at the origin). *)
From Coq Require Import Reals List Arith Bool.
Import ListNotations.
From Verif Require Import BoxModel GridModel GridGeomModel.
Set Implicit Arguments.

(** py_sphere.hpp 38-44 *)
Definition octahedronNodes : list point :=
  [(1, 0, 0); (-1, 0, 0); (0, 1, 0); (0, -1, 0); (0, 0, 1); (0, 0, -1)]%R.
(** 46-53 *)
Definition octahedronElements : list elt :=
  [(2, 4, 0); (1, 4, 2); (3, 4, 1); (0, 4, 3); (5, 2, 0); (5, 1, 2); (5, 3, 1); (5, 0, 3)].

(** 66-72: linesToVerticesMap (its order is irrelevant), m_nodes, and the counter n *)
Definition lineMap := list ((nat * nat) * nat).
Record sstate := SState { ss_map : lineMap; ss_nodes : list point; ss_n : nat }.
(** 84, std::map::find *)
Definition findLine (m : lineMap) (t : nat * nat) : option nat :=
  option_map snd (find (fun x => (fst (fst x) =? fst t) && (snd (fst x) =? snd t)) m).
(** 79-82 *)
Definition lineKey (p q : nat) : nat * nat := if p <? q then (p, q) else (q, p).
(** 77-97: one pass of the loop over i; the midpoint is that of GridGeomModel (88-90) *)
Definition sideNode (elem : elt) (i : nat) (st : sstate) : option (nat * sstate) :=
  let p := enode elem i in
  let q := enode elem ((i + 1) mod 3) in
  let t := lineKey p q in
  match findLine (ss_map st) t with
  | Some k => Some (k, st)
  | None => match nth_error (ss_nodes st) p, nth_error (ss_nodes st) q with
            | Some a, Some b => Some (ss_n st, SState (ss_map st ++ [(t, ss_n st)]) (ss_nodes st ++ [midpoint a b]) (S (ss_n st)))
            | _, _ => None
            end
  end.
(** 98-106 *)
Definition children (e : elt) (n0 n1 n2 : nat) : list elt :=
  [(enode e 0, n0, n2); (n0, enode e 1, n1); (n1, enode e 2, n2); (n0, n1, n2)].
(** 74-107 *)
Fixpoint refineLoop (es : list elt) (st : sstate) : option (list elt * sstate) :=
  match es with
  | [] => Some ([], st)
  | e :: r =>
    match sideNode e 0 st with None => None | Some (n0, st0) =>
    match sideNode e 1 st0 with None => None | Some (n1, st1) =>
    match sideNode e 2 st1 with None => None | Some (n2, st2) =>
    match refineLoop r st2 with None => None | Some (l, st3) =>
      Some (children e n0 n1 n2 ++ l, st3) end end end end
  end.
(** 112-118 *)
Definition lengthOf (p : point) : R := sqrt (px p * px p + py p * py p + pz p * pz p).
Definition normalise (p : point) : option point :=
  if Req_EM_T (lengthOf p) 0 then None else Some (px p / lengthOf p, py p / lengthOf p, pz p / lengthOf p)%R.
Fixpoint mapOpt {A B} (f : A -> option B) (l : list A) : option (list B) :=
  match l with
  | [] => Some []
  | a :: r => match f a, mapOpt f r with Some b, Some s => Some (b :: s) | _, _ => None end
  end.
(** 66-119 *)
Definition refineTriangles (m : list point * list elt) : option (list point * list elt) :=
  match refineLoop (snd m) (SState [] (fst m) (length (fst m))) with
  | None => None
  | Some (es, st) => match mapOpt normalise (ss_nodes st) with None => None | Some nodes => Some (nodes, es) end
  end.
(** 57-58: n passes (none for a negative n) *)
Fixpoint refineTimes (n : nat) (m : list point * list elt) : option (list point * list elt) :=
  match n with
  | O => Some m
  | S k => match refineTriangles m with None => None | Some m' => refineTimes k m' end
  end.
(** 62-63 *)
Definition place (radius : R) (offset : point) (p : point) : point :=
  (radius * px p + px offset, radius * py p + py offset, radius * pz p + pz offset)%R.
(** 35-64 *)
Definition sphereMesh (n : nat) (radius : R) (offset : point) : option (list point * list elt) :=
  match refineTimes n (octahedronNodes, octahedronElements) with
  | None => None
  | Some (nodes, es) => Some (map (place radius offset) nodes, es)
  end.
