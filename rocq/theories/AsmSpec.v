From Verif Require Import Base AsmModel.
Set Implicit Arguments.

(** (element, local dof, weight) triples attached to global dof d *)
Definition support {K : star_ring} (S : space K) (d : nat) : list (nat * nat * K) :=
  flat_map (fun e => flat_map (fun i =>
      match nth_error (nth e (sp_dofs S) []) i with
      | Some (g, w) => if (g =? Z.of_nat d)%Z then [(e, i, w)] else []
      | None => [] end)
    (seq 0 (length (nth e (sp_dofs S) [])))) (seq 0 (length (sp_dofs S))).
(** the Galerkin matrix: sum over the supports of test dof r and trial dof c *)
Definition galerkin {K : star_ring} (T U : space K) (A : nat -> nat -> nat -> nat -> K) (r c : nat) : K :=
  bsum (support T r) (fun x => let '(e, i, w) := x in
  bsum (support U c) (fun y => let '(f, j, v) := y in
    mul (mul (conj w) v) (A e f i j))).
(** the discrete potential operator: row = point * comps + component *)
Definition potential {K : star_ring} (U : space K) (P : nat -> nat -> nat -> nat -> K) (p k c : nat) : K :=
  bsum (support U c) (fun y => let '(f, j, v) := y in mul v (P p f k j)).

(** global dofs are below globalDofCount() *)
Definition dofsInRange {K : star_ring} (S : space K) : Prop :=
  forall ds g w, In ds (sp_dofs S) -> In (g, w) ds -> (g < Z.of_nat (sp_count S))%Z.
(** global2localDofs inverts getGlobalDofs *)
Definition g2lInverse {K : star_ring} (S : space K) : Prop :=
  forall d, d < sp_count S -> exists l, sp_g2l S d = Some l /\ NoDup l /\
    forall e i w, In (e, i, w) l <->
      exists ds, nth_error (sp_dofs S) e = Some ds /\ nth_error ds i = Some (Z.of_nat d, w).

(** Every execution (interleaving) of s0: never faults, can always continue until finished,
    takes at most [bound] steps, and on finishing the matrix has size R x C and entries f. *)
Definition alwaysComputes {K : star_ring} (s0 : pstate K) (R C : nat) (f : nat -> nat -> K) : Prop :=
  (exists bound, forall n s, runs s0 n s -> n <= bound) /\
  forall n s, runs s0 n s ->
    (forall t, tstep s t <> Fault) /\
    (finished s \/ exists t s', tstep s t = Next s') /\
    (finished s -> m_rows (ps_mem s) = R /\ m_cols (ps_mem s) = C /\
       forall r c, r < R -> c < C -> m_at (ps_mem s) r c = f r c).
