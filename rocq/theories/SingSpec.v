(** What connectivity matrices and the singular part of an operator are. *)
From Coq Require Import ZArith List.
Import ListNotations.
From Verif Require Import Base AsmModel AsmSpec SingModel.
Set Implicit Arguments.
Unset Strict Implicit.

Definition subs (t : subEntities) : list nat := let '(a, b, c) := t in [a; b; c].
(** elements e and f have a vertex in common *)
Definition touching (els : list subEntities) (e f : nat) : Prop :=
  exists s t v, nth_error els e = Some s /\ nth_error els f = Some t /\ In v (subs s) /\ In v (subs t).
(** the supports of test dof r and trial dof c touch *)
Definition near {K : star_ring} (els : list subEntities) (T U : space K) (r c : nat) : Prop :=
  exists e i w f j v, In (e, i, w) (support T r) /\ In (f, j, v) (support U c) /\ touching els e f.
(** the weights of dofs are real *)
Definition realWeights {K : star_ring} (S : space K) : Prop := forall ds g w, In ds (sp_dofs S) -> In (g, w) ds -> conj w = w.
(** removes duplicates, in any order *)
Definition removesDuplicates (unique : list (nat * nat) -> list (nat * nat)) : Prop :=
  forall l, NoDup (unique l) /\ forall x, In x (unique l) <-> In x l.
