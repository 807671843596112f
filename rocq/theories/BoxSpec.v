(** Geometric vocabulary for boxes: closed boxes as point sets. *)
From Coq Require Import Reals.
From Verif Require Import BoxModel.
Local Open Scope R_scope.

(** p lies in the closed box *)
Definition inBox (b : hbox) (p : point) : Prop :=
  d0 b <= px p <= d1 b /\ d2 b <= py p <= d3 b /\ d4 b <= pz p <= d5 b.
Definition validBox (b : hbox) : Prop := d0 b <= d1 b /\ d2 b <= d3 b /\ d4 b <= d5 b.
(** Euclidean distance of points *)
Definition dist (p q : point) : R :=
  sqrt ((px p - px q) * (px p - px q) + (py p - py q) * (py p - py q) + (pz p - pz q) * (pz p - pz q)).

(** coordinatewise order *)
Definition ple (p q : point) : Prop := px p <= px q /\ py p <= py q /\ pz p <= pz q.
Definition inBB (b : bbox) (p : point) : Prop := ple (lbound b) p /\ ple p (ubound b).
