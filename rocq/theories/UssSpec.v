(** Specifications for C179, C180, independent of the model's functions. *)
From Coq Require Import List Reals.
Import ListNotations.
From Verif Require Import BoxModel UssModel.
Local Open Scope R_scope.

Definition below (a b : point) : Prop := px a <= px b /\ py a <= py b /\ pz a <= pz b.
Definition isCorner (elements : list triangle) (c : point) : Prop := exists p q r, In (p, q, r) elements /\ (c = p \/ c = q \/ c = r).
(** the coordinates of the points are numbers that the coordinate type can hold *)
Definition representable (M : R) (elements : list triangle) : Prop := forall c, isCorner elements c -> below (- M, - M, - M) c /\ below c (M, M, M).
(** each face of the box touches a corner *)
Definition tight (elements : list triangle) (lo hi : point) : Prop :=
  (exists c, isCorner elements c /\ px c = px lo) /\ (exists c, isCorner elements c /\ py c = py lo) /\ (exists c, isCorner elements c /\ pz c = pz lo) /\
  (exists c, isCorner elements c /\ px c = px hi) /\ (exists c, isCorner elements c /\ py c = py hi) /\ (exists c, isCorner elements c /\ pz c = pz hi).
