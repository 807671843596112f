(** Vocabulary for the trace of P1 functions. *)
From Coq Require Import ZArith List Bool Arith.
Import ListNotations.
From Verif Require Import Base AsmModel MatAlg SegModel SpaceModel SpaceSpec.

Section Traces.
  Context {K : star_ring}.
  (** entry i of M x *)
  Definition applied (M : mat K) (x : nat -> K) (i : nat) : K := bsum (seq 0 (m_cols M)) (fun j => mul (m_at M i j) (x j)).
  (** the vertices of the grid are inserted in some order *)
  Definition insertionOrder (g : sgrid) (ins : Z -> nat) : Prop :=
    (forall v, (0 <= v < g_n2 g)%Z -> ins v < Z.to_nat (g_n2 g)) /\
    (forall v w, (0 <= v < g_n2 g)%Z -> (0 <= w < g_n2 g)%Z -> ins v = ins w -> v = w).
End Traces.
