(** C42, C76: dense and sparse assembly of local operators *)
From Verif Require Import Base AsmModel AsmSpec OperModel OperSpec LocalOpModel LocalOpProofs.
Set Implicit Arguments.

(** integrals over one element only: zero for two different elements *)
Definition local {K : star_ring} (L : nat -> mat K) (e f i j : nat) : K := if e =? f then m_at (L e) i j else zero.
(** the local matrices have the sizes of the elements' dof lists *)
Definition fitting {K R : star_ring} (T U : space R) (L : nat -> mat K) : Prop :=
  forall e, e < length (sp_dofs T) -> m_rows (L e) = length (nth e (sp_dofs T) []) /\ m_cols (L e) = length (nth e (sp_dofs U) []).
(** the sub-ranges handed out by the parallel loop cover every element once *)
Definition covers (ranges : list (nat * nat)) (n : nat) : Prop :=
  Permutation (flat_map (fun r => seq (fst r) (snd r - fst r)) ranges) (seq 0 n).

Lemma map_id_dofs (K : star_ring) (S : space K) d : support (castSpace (fun x : K => x) S) d = support S d.
Proof.
  unfold support. cbn [castSpace sp_dofs].
  assert (E : map (map (fun d : Z * K => (fst d, snd d))) (sp_dofs S) = sp_dofs S).
  { rewrite <- (map_id (sp_dofs S)) at 2. apply map_ext. intro l. rewrite <- (map_id l) at 2. apply map_ext. now intros []. }
  rewrite E. reflexivity.
Qed.

Theorem C42_local_operators (K : star_ring) (T U : space K) (L : nat -> mat K) ranges :
  dofsInRange T -> dofsInRange U -> length (sp_dofs T) = length (sp_dofs U) -> fitting T U L -> covers ranges (length (sp_dofs T)) ->
  exists md ms, localDense (fun x => x) T U L = Some md /\ localSparse (fun x => x) (fun x => x) T U L ranges = Some ms /\
    m_rows md = sp_count T /\ m_cols md = sp_count U /\ sameMat ms md /\
    forall r c, m_at md r c = galerkin T U (local L) r c.
Proof.
  intros HT HU LEN F C.
  destruct (@localDense_ok K K (fun x => x) T U HT HU L F) as (md & E1 & R1 & C1 & P1).
  destruct (@localSparse_ok K K (fun x => x) (fun x => x) T U HT HU (fun _ _ => eq_refl) L ranges F C) as (ms & E2 & R2 & C2 & P2).
  exists md, ms. split; [exact E1|]. split; [exact E2|]. split; [exact R1|]. split; [exact C1|]. split.
  - split; [congruence|]. split; [congruence|]. intros. rewrite P1, P2. reflexivity.
  - intros r c. rewrite P1, localSum_galerkin by exact LEN. unfold galerkin. rewrite map_id_dofs. apply bsum_ext. intros [[e i] w] _. rewrite map_id_dofs. reflexivity.
Qed.
Print Assumptions C42_local_operators.

(** C76: complex result type over a real basis function type.  The sparse matrix holds the
    real parts of the dense one; they agree when the local matrices are real. *)
Definition toCx {R : star_ring} (x : R) : Cx R := (x, zero).
Lemma snd_bsum_zero (R : star_ring) A (l : list A) (f : A -> Cx R) : (forall a, In a l -> snd (f a) = zero) -> snd (bsum l f) = zero.
Proof.
  induction l as [|a l IH]; intro H; [reflexivity|]. rewrite bsum_cons.
  change (add (snd (f a)) (snd (bsum l f)) = zero). rewrite H by (now left). rewrite IH by (intros; apply H; now right). apply (Radd_0_l (sr_ring R)).
Qed.
Theorem C76_complex_sparse_partial (R : star_ring) (T U : space R) (L : nat -> mat (Cx R)) ranges :
  dofsInRange T -> dofsInRange U -> length (sp_dofs T) = length (sp_dofs U) -> fitting T U L -> covers ranges (length (sp_dofs T)) ->
  exists md ms, localDense toCx T U L = Some md /\ localSparse toCx (fun z : Cx R => fst z) T U L ranges = Some ms /\
    m_rows ms = m_rows md /\ m_cols ms = m_cols md /\
    (forall r c, m_at ms r c = fst (m_at md r c)) /\
    ((forall e i j, snd (m_at (L e) i j) = zero) -> sameMat (castM ms) md).
Proof.
  intros HT HU LEN F C.
  destruct (@localDense_ok R (Cx R) toCx T U HT HU L F) as (md & E1 & R1 & C1 & P1).
  destruct (@localSparse_ok R (Cx R) toCx (fun z : Cx R => fst z) T U HT HU (fun _ _ => eq_refl) L ranges F C) as (ms & E2 & R2 & C2 & P2).
  exists md, ms. split; [exact E1|]. split; [exact E2|]. split; [congruence|]. split; [congruence|].
  assert (X : forall r c, m_at ms r c = fst (m_at md r c)) by (intros; rewrite P1, P2; reflexivity).
  split; [exact X|]. intro RL. split; [cbn; congruence|]. split; [cbn; congruence|]. intros r c _ _. cbn [castM m_at]. rewrite X.
  assert (S0 : snd (m_at md r c) = zero).
  { rewrite P1. unfold localSum. apply snd_bsum_zero. intros e _. unfold elt, AsmProofs.loc.
    apply snd_bsum_zero. intros [j [g v]] Hj. destruct (g =? _)%Z; [|reflexivity].
    apply snd_bsum_zero. intros [i [g' w]] Hi. destruct (g' =? _)%Z; [|reflexivity].
    apply AsmProofs.in_enumerate, nth_error_In in Hi, Hj. apply in_map_iff in Hi as ([? a] & Q & _), Hj as ([? b] & Q' & _).
    injection Q as _ <-. injection Q' as _ <-. cbn. unfold cx_mul, cx_conj. cbn [fst snd].
    assert (Z : opp zero = zero :> R).
    { transitivity (add zero (opp zero) : R); [symmetry; apply (Radd_0_l (sr_ring R))|apply (Ropp_def (sr_ring R))]. }
    rewrite RL, Z. rewrite !mul_zero_r_.
    assert (ZL : forall x : R, mul zero x = zero) by (intro x; rewrite (Rmul_comm (sr_ring R)); apply mul_zero_r_).
    rewrite !ZL, !(Radd_0_l (sr_ring R)), ?ZL. reflexivity. }
  destruct (m_at md r c) as [a b]. cbn in S0 |- *. congruence.
Qed.
Print Assumptions C76_complex_sparse_partial.

Definition ex_T : space Zsr := Space 2 [[(0%Z, 1%Z : Zsr); (1%Z, (-1)%Z : Zsr)]; [(1%Z, 2%Z : Zsr); ((-1)%Z, 1%Z : Zsr)]] (fun _ => None).
Definition ex_U : space Zsr := Space 2 [[(0%Z, 1%Z : Zsr)]; [(1%Z, 1%Z : Zsr)]] (fun _ => None).
Definition ex_L (e : nat) : mat Zsr := Mat 2 1 (fun i j => Z.of_nat (1 + e + i) : Zsr).
Definition ex_Lc (e : nat) : mat (Cx Zsr) := Mat 2 1 (fun i j => (1%Z, 1%Z) : Cx Zsr).
Definition dump {K : star_ring} (m : option (mat K)) : option (list (list K)) :=
  match m with Some m => Some (map (fun r => map (fun c => m_at m r c) (seq 0 (m_cols m))) (seq 0 (m_rows m))) | None => None end.
Theorem C76_complex_sparse_refuted : exists (T U : space Zsr) (L : nat -> mat (Cx Zsr)) ranges md ms,
  dofsInRange T /\ dofsInRange U /\ length (sp_dofs T) = length (sp_dofs U) /\ fitting T U L /\ covers ranges (length (sp_dofs T)) /\
  localDense toCx T U L = Some md /\ localSparse toCx (fun z : Cx Zsr => fst z) T U L ranges = Some ms /\ ~ sameMat (castM ms) md.
Proof.
  exists ex_T, ex_U, ex_Lc, [(0, 2)].
  assert (HT : dofsInRange ex_T). { intros ds g w I J. cbn in I. repeat (destruct I as [<-|I]; [cbn in J; repeat (destruct J as [E|J]; [injection E; intros; subst; cbn; lia|]); destruct J|]). destruct I. }
  assert (HU : dofsInRange ex_U). { intros ds g w I J. cbn in I. repeat (destruct I as [<-|I]; [cbn in J; repeat (destruct J as [E|J]; [injection E; intros; subst; cbn; lia|]); destruct J|]). destruct I. }
  assert (F : fitting ex_T ex_U ex_Lc). { intros e He. cbn in He. destruct e as [|[|]]; [cbn; auto..|lia]. }
  assert (C : covers [(0, 2)] (length (sp_dofs ex_T))) by apply Permutation_refl.
  destruct (@C76_complex_sparse_partial Zsr ex_T ex_U ex_Lc [(0, 2)] HT HU eq_refl F C) as (md & ms & E1 & E2 & R1 & C1 & X & _).
  exists md, ms. do 7 (split; [assumption || reflexivity|]). intros (_ & _ & S).
  assert (D : dump (Some md) = Some [[(1, 1)%Z : Cx Zsr; (0, 0)%Z : Cx Zsr]; [(-1, -1)%Z : Cx Zsr; (2, 2)%Z : Cx Zsr]]) by (rewrite <- E1; vm_compute; reflexivity).
  assert (M1 : m_rows md = 2 /\ m_cols md = 2). { clear -E1. unfold localDense in E1. vm_compute in E1. injection E1 as <-. auto. }
  specialize (S 0 0). cbn [castM m_rows m_cols m_at] in S. destruct M1 as (M1 & M2). rewrite R1, C1, M1, M2 in S. specialize (S ltac:(lia) ltac:(lia)).
  unfold dump in D. rewrite M1, M2 in D. cbn [seq map] in D. injection D as D0 _ _ _. rewrite <- S in D0. discriminate.
Qed.
Print Assumptions C76_complex_sparse_refuted.

Example C42_instance : dump (localSparse (fun x : Zsr => x) (fun x : Zsr => x) ex_T ex_U ex_L [(1, 2); (0, 1)]) = Some [[1; 0]; [-2; 4]]%Z /\
  dump (localDense (fun x : Zsr => x) ex_T ex_U ex_L) = Some [[1; 0]; [-2; 4]]%Z.
Proof. split; vm_compute; reflexivity. Qed.
