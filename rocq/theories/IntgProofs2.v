From Coq Require Import List Arith Lia Bool Ring.
From Verif Require Import Base CxRing AsmModel MatAlg ArrayModel LocalCacheProofs IntgModel IntgSpec IntgProofs.
Import ListNotations.
Set Implicit Arguments.

Section One.
  Variable K : star_ring.
  Add Ring Kring : (sr_ring K).
  Local Open Scope sr_scope.
  (** One transformation, weights given: (Test^H-ordered) * (w Trial^H-ordered)^H. *)
  Lemma pair_product (test trial : arr3 K) (w : nat -> K) rows cols n :
    x1 test = rows -> x2 test = n -> x1 trial = cols -> x2 trial = n -> x0 trial = x0 test -> 0 < x0 test -> 0 < rows -> 0 < cols -> 0 < n ->
    exists mt mr, emap (reorder test) rows (n * x0 test) = Ok mt /\ emap (reorderWeighted w trial) cols (n * x0 test) = Ok mr /\
      m_rows (mMul mt (mH mr)) = rows /\ m_cols (mMul mt (mH mr)) = cols /\
      forall f g, f < rows -> g < cols -> m_at (mMul mt (mH mr)) f g =
        bsum (seq 0 n) (fun p => conj (w p) * bsum (seq 0 (x0 test)) (fun d => conj (a3 test d f p) * a3 trial d g p)).
  Proof.
    intros A1 A2 B1 B2 Hd Pd Pr Pc Pn.
    assert (Q1 : 0 < rows * x0 test * n) by (apply Nat.mul_pos_pos; [apply Nat.mul_pos_pos|]; auto).
    assert (Q2 : 0 < cols * x0 test * n) by (apply Nat.mul_pos_pos; [apply Nat.mul_pos_pos|]; auto).
    pose proof (reorder_length test) as L1. rewrite A1, A2 in L1.
    pose proof (reorderW_length w trial) as L2. rewrite B1, B2, Hd in L2.
    do 2 eexists. split; [apply emap_ok; rewrite L1; nia|]. split; [apply emap_ok; rewrite L2; nia|].
    split; [reflexivity|]. split; [reflexivity|]. intros f g Hf Hg. cbn [mMul mH m_at m_rows m_cols].
    rewrite Nat.mul_comm, bsum_seq_mul. apply bsum_ext. intros p Hp. apply in_seq in Hp. rewrite <- bsum_mul_l.
    apply bsum_ext. intros d Hdd. apply in_seq in Hdd. rewrite Nat.add_0_l.
    replace (f + (d + p * x0 test) * rows)%nat with (f + d * rows + p * (rows * x0 test))%nat by lia.
    replace (g + (d + p * x0 test) * cols)%nat with (g + d * cols + p * (cols * x0 test))%nat by lia.
    pose proof (@reorder_nth K test f d p) as X. rewrite A1, A2 in X. rewrite X by lia.
    pose proof (@reorderW_nth K w trial g d p) as Y. rewrite B1, B2, Hd in Y. rewrite Y by lia.
    rewrite conj_mul, conj_invol. ring.
  Qed.
  Lemma values_at dofs pts (vs : list (arr3 K)) t : values dofs pts vs -> t < length vs ->
    x1 (nth t vs (d3 K)) = dofs /\ x2 (nth t vs (d3 K)) = pts /\ 0 < x0 (nth t vs (d3 K)).
  Proof.
    intros [_ V] Ht. rewrite Forall_forall in V. destruct (V (nth t vs (d3 K))) as (A & B & C & _); [apply nth_In; auto|]. auto.
  Qed.
  Lemma kernel_at n (kernels : list (arr3 K)) t : grid3 n kernels -> t < length kernels -> x2 (nth t kernels (d3 K)) = n.
  Proof. intros V Ht. unfold grid3 in V. rewrite Forall_forall in V. destruct (V (nth t kernels (d3 K))) as (A & B & C & _); [apply nth_In; auto|]. auto. Qed.
End One.

Section Pairs.
  Variable K : star_ring.
  Add Ring Kring2 : (sr_ring K).
  Local Open Scope sr_scope.
  Variables (testGeom trialGeom : geom K) (tests trials : list (arr3 K)) (w : list K) (rows cols : nat) (kernels : list (arr3 K)).
  Hypothesis D : pairData testGeom trialGeom tests trials w rows cols.
  Hypothesis G : grid3 (length w) kernels.
  Hypothesis Hk : kernelCount (length tests) (length kernels).
  Notation idx t := (if (length kernels =? 1)%nat then 0%nat else t).
  Definition kerAt (t : nat) := nth (idx t) kernels (d3 K).
  Definition term3 (t f g : nat) : K :=
    bsum (seq 0 (length w)) (fun p => nth p (g_ie testGeom) 0 * nth p (g_ie trialGeom) 0 * nth p w 0 *
      (bsum (seq 0 (x0 (nth t tests (d3 K)))) (fun d => conj (a3 (nth t tests (d3 K)) d f p) * a3 (nth t trials (d3 K)) d g p) * a3 (kerAt t) 0 0 p)).
  Definition inv3 (t : nat) (s : list K * mat K) : Prop :=
    ((0 < t)%nat -> length kernels = 1%nat -> fst s = productsOf testGeom trialGeom (kerAt 0) w) /\
    m_rows (snd s) = rows /\ m_cols (snd s) = cols /\
    forall f g, f < rows -> g < cols -> m_at (snd s) f g = bsum (seq 0 t) (fun t' => term3 t' f g).

  Lemma pn_pos : 0 < length tests.
  Proof. destruct (pd_test D) as [N _]; destruct tests; [congruence | cbn; lia]. Qed.
  Lemma products_nth kernel p : p < length w -> conj (nth p (productsOf testGeom trialGeom kernel w) 0) =
    nth p (g_ie testGeom) 0 * nth p (g_ie trialGeom) 0 * nth p w 0 * a3 kernel 0 0 p.
  Proof.
    intros Hp. unfold productsOf. rewrite map_seq_nth by auto. rewrite !conj_mul, conj_invol.
    destruct (pd_real D) as (A & B & C). rewrite !reals_nth by auto. ring.
  Qed.
  Lemma step3 t s : t < length tests -> inv3 t s ->
    exists s', nontensorStep testGeom trialGeom tests trials kernels w rows cols t s = Ok s' /\ inv3 (S t) s'.
  Proof.
    intros Ht (I0 & Ir & Ic & Iv). pose proof pn_pos as Pn.
    pose proof (matching_length (pd_match D)) as Lm. destruct (pd_dofs D) as [Dr Dc]. destruct (pd_ie D) as [E1 E2].
    destruct (@values_at K rows (length w) tests t (pd_test D) Ht) as (A1 & A2 & A3). destruct (@values_at K cols (length w) trials t (pd_trial D)) as (B1 & B2 & B3); [lia|].
    pose proof (matching_nth t (pd_match D)) as Hd.
    unfold nontensorStep. cbv zeta. unfold getAt.
    rewrite (nth_error_nth_lt _ (d3 K) Ht), (@nth_error_nth_lt _ trials t (d3 K)) by lia. cbn [bind].
    rewrite Hd, Nat.eqb_refl. cbn [assert bind].
    assert (Pp : (if ((t =? 0) || (1 <? length kernels))%nat
       then bind match nth_error kernels t with Some a => Ok a | None => Undefined end (fun kernel =>
         bind (assert ((length w <=? length (g_ie testGeom)) && (length w <=? length (g_ie trialGeom)))) (fun _ => Ok (productsOf testGeom trialGeom kernel w)))
       else Ok (fst s)) = Ok (productsOf testGeom trialGeom (kerAt t) w)).
    { destruct ((t =? 0) || (1 <? length kernels))%nat eqn:C.
      - assert (L : t < length kernels).
        { apply orb_true_iff in C. destruct C as [C|C]; [apply Nat.eqb_eq in C; destruct Hk; lia|]. apply Nat.ltb_lt in C. destruct Hk; lia. }
        rewrite (nth_error_nth_lt _ (d3 K) L). cbn [bind]. rewrite E1, E2, Nat.leb_refl. cbn [andb assert bind]. do 2 f_equal.
        unfold kerAt. destruct (length kernels =? 1)%nat eqn:C1; [|reflexivity].
        apply Nat.eqb_eq in C1. assert (t = 0%nat) by lia. subst t. reflexivity.
      - apply orb_false_iff in C. destruct C as [C1 C2]. apply Nat.eqb_neq in C1. apply Nat.ltb_ge in C2.
        assert (L1 : length kernels = 1%nat) by (destruct Hk; lia). f_equal. rewrite I0 by (auto; lia).
        unfold kerAt. rewrite L1. reflexivity. }
    rewrite Pp. cbn [bind].
    destruct (@pair_product K (nth t tests (d3 K)) (nth t trials (d3 K)) (fun p => nth p (productsOf testGeom trialGeom (kerAt t) w) 0) rows cols (length w))
      as (mt & mr & M1 & M2 & M3 & M4 & M5); auto; [apply (pd_points D)|].
    rewrite M1. cbn [bind]. rewrite M2. cbn [bind]. eexists. split; [reflexivity|].
    split; [|split; [|split]]; cbn [fst snd mAdd m_rows m_cols m_at]; auto.
    - intros _ L1. unfold kerAt. rewrite L1. reflexivity.
    - intros f g Hf Hg. rewrite Iv, M5 by auto. rewrite seq_S, bsum_app, bsum_cons, bsum_nil. cbn [Nat.add].
      assert (Z : forall x : K, x + 0 = x) by (intros; ring). rewrite Z. f_equal. unfold term3. apply bsum_ext. intros p Hp. apply in_seq in Hp.
      rewrite products_nth by lia. ring.
  Qed.
  Lemma loop3 n : n <= length tests -> exists s, loop (seq 0 n) (nontensorStep testGeom trialGeom tests trials kernels w rows cols)
    (repeat 0 (length w), zeroMat K rows cols) = Ok s /\ inv3 n s.
  Proof.
    induction n as [|n IH]; intros Hn.
    - eexists. split; [reflexivity|]. split; [intros; lia|]. split; [reflexivity|]. split; [reflexivity|]. intros. reflexivity.
    - destruct IH as (s & E & I); [lia|]. rewrite seq_S, loop_app, E. cbn [bind loop Nat.add].
      destruct (@step3 n s) as (s' & E' & I'); [lia|auto|]. rewrite E'. cbn [bind]. eexists; split; [reflexivity|auto].
  Qed.
  Lemma pairEntry_seq f g : pairEntry tests trials kernels (g_ie testGeom) (g_ie trialGeom) w f g = bsum (seq 0 (length tests)) (fun t => term3 t f g).
  Proof.
    unfold pairEntry, term3. symmetry. rewrite bsum_swap. apply bsum_ext. intros p Hp.
    rewrite (@integrand_seq K tests trials _ f g p p (length tests)) by (rewrite ?map_length, ?kernelsFor_length; auto; symmetry; apply (matching_length (pd_match D))).
    rewrite <- bsum_mul_l. apply bsum_ext. intros t Ht. apply in_seq in Ht.
    do 2 f_equal. rewrite (nth_indep _ 0 (a3 (d3 K) 0 0 p)) by (rewrite map_length, kernelsFor_length; auto; lia).
    rewrite (map_nth (fun k => a3 k 0 0 p)). unfold kerAt. rewrite kernelsFor_nth by lia. reflexivity.
  Qed.
  Theorem nontensorBlas_ok :
    isMatrix (nontensorBlas testGeom trialGeom tests trials kernels w rows cols) rows cols
      (pairEntry tests trials kernels (g_ie testGeom) (g_ie trialGeom) w).
  Proof.
    pose proof pn_pos as Pn. pose proof (matching_length (pd_match D)) as Lm.
    unfold nontensorBlas. cbv zeta. rewrite counts_ok by (auto; lia). cbn [assert bind].
    rewrite (values_first (pd_test D)), (values_first (pd_trial D)). cbn [bind].
    rewrite (values_ok (pd_test D)), (values_ok (pd_trial D)), !Nat.eqb_refl.
    rewrite forallb_true.
    2:{ pose proof G as V. unfold grid3 in V. eapply Forall_impl; [|exact V]. cbn. intros k (A & B & C & _). rewrite C, !Nat.eqb_refl. reflexivity. }
    cbn [andb assert bind]. destruct (@loop3 (length tests)) as (s & E & I0 & Ir & Ic & Iv); [lia|]. rewrite E. cbn [bind].
    exists (snd s). split; [reflexivity|]. split; [auto|]. split; [auto|]. intros f g Hf Hg. rewrite Iv by auto. symmetry. apply pairEntry_seq.
  Qed.
End Pairs.
