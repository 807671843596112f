(** Vocabulary for triangle grids, independent of the data container. *)
From Coq Require Import List Arith.
Import ListNotations.
From Verif Require Import GridModel.

(** the i-th side of an element as an ordered node pair, in Dune's numbering of sides *)
Definition sideNodes (e : elt) (i : nat) : nat * nat :=
  match i with
  | 0 => (fst (fst e), snd (fst e))
  | 1 => (fst (fst e), snd e)
  | _ => (snd (fst e), snd e)
  end.
(** the same two nodes, in any order *)
Definition sameEnds (p q : nat * nat) : Prop :=
  p = q \/ p = (snd q, fst q).
Definition distinctNodes (e : elt) : Prop :=
  fst (fst e) <> snd (fst e) /\ fst (fst e) <> snd e /\ snd (fst e) <> snd e.
Definition nodesBelow (n : nat) (e : elt) : Prop := fst (fst e) < n /\ snd (fst e) < n /\ snd e < n.

(** oriented sides of a triangle, in cyclic order *)
Definition directedSides (e : elt) : list (nat * nat) :=
  let '(a, b, c) := e in [(a, b); (b, c); (c, a)].
