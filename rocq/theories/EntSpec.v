(** Vocabulary for the numbering of entities. *)
From Coq Require Import List Arith ZArith.
Import ListNotations.
From Verif Require Import EntModel.
Set Implicit Arguments.

Section Numbering.
  Variable E : Type.
  (** entities have different indices 0, ..., count - 1 *)
  Definition numbered (ents : list E) (count : nat) (index : E -> nat) : Prop :=
    length ents = count /\ NoDup (map index ents) /\ forall e, In e ents -> index e < count.
  (** entities have different insertion indices *)
  Definition inserted (ents : list E) (insertion : E -> option nat) : Prop :=
    NoDup (map insertion ents) /\ forall e, In e ents -> insertion e <> None.
End Numbering.
