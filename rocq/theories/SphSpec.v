(** Vocabulary for triangulated surfaces. *)
From Coq Require Import Reals List Arith.
Import ListNotations.
From Verif Require Import BoxModel GridModel GridSpec.

(** side number i of triangle number t, directed *)
Definition sideAt (es : list elt) (t i : nat) (d : nat * nat) : Prop :=
  exists e, nth_error es t = Some e /\ nth_error (directedSides e) i = Some d.
(** a closed, consistently oriented surface: a directed side belongs to one triangle, and the triangle on the other side has it
    in the opposite direction *)
Definition closedOriented (es : list elt) : Prop :=
  (forall t t' i i' d, sideAt es t i d -> sideAt es t' i' d -> t = t' /\ i = i') /\
  (forall t i p q, sideAt es t i (p, q) -> exists t' i', sideAt es t' i' (q, p)).

Local Open Scope R_scope.
Definition psub (a b : point) : point := (px a - px b, py a - py b, pz a - pz b).
Definition pdot (a b : point) : R := px a * px b + py a * py b + pz a * pz b.
Definition pcross (a b : point) : point :=
  (py a * pz b - pz a * py b, pz a * px b - px a * pz b, px a * py b - py a * px b).
(** corners of a triangle *)
Definition cornersOf (nodes : list point) (e : elt) (a b c : point) : Prop :=
  nth_error nodes (enode e 0) = Some a /\ nth_error nodes (enode e 1) = Some b /\ nth_error nodes (enode e 2) = Some c.
(** the normal vector of the triangle a, b, c points away from o *)
Definition facesAway (o a b c : point) : Prop :=
  0 < pdot (pcross (psub b a) (psub c a)) (psub a o).
(** distance of p from o is r *)
Definition onSphere (o : point) (r : R) (p : point) : Prop := pdot (psub p o) (psub p o) = r * r.
