From Coq Require Import List Arith Lia Bool Ring.
From Verif Require Import Base CxRing AsmModel MatAlg ArrayModel LocalCacheProofs IntgModel IntgSpec IntgProofs IntgProofs2.
Import ListNotations.
Set Implicit Arguments.

Section Split.
  Variable F : star_ring.
  Add Ring Fring : (sr_ring F).
  Hypothesis Freal : forall x : F, conj x = x.
  Notation C := (Cx F).
  Add Ring Cring : (sr_ring C).

  Lemma cre_add (x y : F) : cre F (add x y) = add (cre F x) (cre F y).
  Proof. apply injective_projections; cbn [cre add Cx cx_add fst snd]; ring. Qed.
  Lemma cre_mul (x y : F) : cre F (mul x y) = mul (cre F x) (cre F y).
  Proof. apply injective_projections; cbn [cre mul Cx cx_mul fst snd]; ring. Qed.
  Lemma cre_conj (x : F) : conj (cre F x) = cre F x.
  Proof. apply injective_projections; cbn [cre conj Cx cx_conj fst snd]; ring. Qed.
  Lemma cre_bsum A (l : list A) (f : A -> F) : bsum l (fun a => cre F (f a)) = cre F (bsum l f).
  Proof. induction l as [|a l IH]; [reflexivity|]. rewrite !bsum_cons, IH, cre_add. reflexivity. Qed.
  Lemma fst_cre_mul (x : F) (z : C) : fst (mul (cre F x) z) = mul x (fst z).
  Proof. cbn [cre mul Cx cx_mul fst snd]. ring. Qed.
  Lemma snd_cre_mul (x : F) (z : C) : snd (mul (cre F x) z) = mul x (snd z).
  Proof. cbn [cre mul Cx cx_mul fst snd]. ring. Qed.
  Lemma nth_cre p (l : list F) : nth p (map (@cre F) l) (zero : C) = cre F (nth p l zero).
  Proof. exact (map_nth (@cre F) l zero p). Qed.
  Lemma a3_complexify (v : arr3 F) i j k : a3 (complexify v) i j k = cre F (a3 v i j k).
  Proof. unfold a3. cbn [complexify x0 x1 st3]. apply nth_cre. Qed.

  Variables (testGeom trialGeom : geom F) (tests trials : list (arr3 F)) (w : list F) (rows cols : nat) (kernels : list (arr3 C)).
  Hypothesis D : pairData testGeom trialGeom tests trials w rows cols.
  Hypothesis G : grid3 (length w) kernels.
  Hypothesis Hk : kernelCount (length tests) (length kernels).
  Notation idx t := (if (length kernels =? 1)%nat then 0%nat else t).
  Definition skerAt (t : nat) : arr3 C := nth (idx t) kernels (d3 C).
  Definition sterm (part : C -> F) (t f g : nat) : F :=
    bsum (seq 0 (length w)) (fun p => mul (mul (mul (nth p (g_ie testGeom) zero) (nth p (g_ie trialGeom) zero)) (nth p w zero))
      (mul (bsum (seq 0 (x0 (nth t tests (d3 F)))) (fun d => mul (conj (a3 (nth t tests (d3 F)) d f p)) (a3 (nth t trials (d3 F)) d g p))) (part (a3 (skerAt t) 0 0 p)))).
  Definition sinv (t : nat) (s : splitState F) : Prop :=
    (0 < t -> length kernels = 1 -> sp_re s = productsPart fst testGeom trialGeom (skerAt 0) w /\ sp_im s = productsPart snd testGeom trialGeom (skerAt 0) w) /\
    (m_rows (sp_matRe s) = rows /\ m_cols (sp_matRe s) = cols) /\
    (forall f g, f < rows -> g < cols -> m_at (sp_matRe s) f g = bsum (seq 0 t) (fun t' => sterm fst t' f g)) /\
    (forall f g, f < rows -> g < cols -> m_at (sp_matIm s) f g = bsum (seq 0 t) (fun t' => sterm snd t' f g)).

  Lemma part_nth part kernel p : p < length w -> conj (nth p (productsPart part testGeom trialGeom kernel w) zero) =
    mul (mul (mul (nth p (g_ie testGeom) zero) (nth p (g_ie trialGeom) zero)) (nth p w zero)) (part (a3 kernel 0 0 p)).
  Proof. intros Hp. unfold productsPart. rewrite map_seq_nth by auto. rewrite Freal. ring. Qed.

  Lemma sstep t s : t < length tests -> sinv t s ->
    exists s', splitStep testGeom trialGeom tests trials kernels w rows cols t s = Ok s' /\ sinv (S t) s'.
  Proof.
    intros Ht (I0 & (Ir & Ic) & Iv & Iw). assert (Pn : 0 < length tests) by (destruct (pd_test D) as [N _]; destruct tests; [congruence | cbn; lia]).
    pose proof (matching_length (pd_match D)) as Lm. destruct (pd_dofs D) as [Dr Dc]. destruct (pd_ie D) as [E1 E2].
    destruct (@values_at F rows (length w) tests t (pd_test D) Ht) as (A1 & A2 & A3). destruct (@values_at F cols (length w) trials t (pd_trial D)) as (B1 & B2 & B3); [lia|].
    pose proof (matching_nth t (pd_match D)) as Hd.
    unfold splitStep. cbv zeta. unfold getAt.
    rewrite (nth_error_nth_lt _ (d3 F) Ht), (@nth_error_nth_lt _ trials t (d3 F)) by lia. cbn [bind].
    rewrite Hd, Nat.eqb_refl. cbn [assert bind].
    assert (Pp : (if (t =? 0) || (1 <? length kernels)
       then bind match nth_error kernels t with Some a => Ok a | None => Undefined end (fun kernel =>
         bind (assert ((length w <=? length (g_ie testGeom)) && (length w <=? length (g_ie trialGeom)))) (fun _ =>
           Ok (productsPart fst testGeom trialGeom kernel w, productsPart snd testGeom trialGeom kernel w)))
       else Ok (sp_re s, sp_im s)) = Ok (productsPart fst testGeom trialGeom (skerAt t) w, productsPart snd testGeom trialGeom (skerAt t) w)).
    { destruct ((t =? 0) || (1 <? length kernels)) eqn:Cnd.
      - assert (L : t < length kernels).
        { apply orb_true_iff in Cnd. destruct Cnd as [Cnd|Cnd]; [apply Nat.eqb_eq in Cnd; destruct Hk; lia|]. apply Nat.ltb_lt in Cnd. destruct Hk; lia. }
        rewrite (nth_error_nth_lt _ (d3 C) L). cbn [bind]. rewrite E1, E2, Nat.leb_refl. cbn [andb assert bind].
        assert (Sk : nth t kernels (d3 C) = skerAt t).
        { unfold skerAt. destruct (length kernels =? 1) eqn:C1; [|reflexivity]. apply Nat.eqb_eq in C1. assert (t = 0) by lia. subst t. reflexivity. }
        rewrite Sk. reflexivity.
      - apply orb_false_iff in Cnd. destruct Cnd as [C1 C2]. apply Nat.eqb_neq in C1. apply Nat.ltb_ge in C2.
        assert (L1 : length kernels = 1) by (destruct Hk; lia). destruct I0 as [I1 I2]; [lia|auto|]. rewrite I1, I2.
        unfold skerAt. rewrite L1. reflexivity. }
    rewrite Pp. cbn [bind fst snd].
    destruct (@pair_product F (nth t tests (d3 F)) (nth t trials (d3 F)) (fun p => nth p (productsPart fst testGeom trialGeom (skerAt t) w) zero) rows cols (length w))
      as (mt & mr & M1 & M2 & M3 & M4 & M5); auto; [apply (pd_points D)|].
    destruct (@pair_product F (nth t tests (d3 F)) (nth t trials (d3 F)) (fun p => nth p (productsPart snd testGeom trialGeom (skerAt t) w) zero) rows cols (length w))
      as (mt' & mi & N1 & N2 & N3 & N4 & N5); auto; [apply (pd_points D)|].
    rewrite M1 in N1. injection N1 as <-.
    rewrite M1. cbn [bind]. rewrite M2. cbn [bind]. rewrite N2. cbn [bind]. eexists. split; [reflexivity|].
    assert (Ent : forall part m, (forall f g, f < rows -> g < cols -> m_at (mMul mt (mH m)) f g =
        bsum (seq 0 (length w)) (fun p => mul (conj (nth p (productsPart part testGeom trialGeom (skerAt t) w) zero))
          (bsum (seq 0 (x0 (nth t tests (d3 F)))) (fun d => mul (conj (a3 (nth t tests (d3 F)) d f p)) (a3 (nth t trials (d3 F)) d g p))))) ->
      forall f g, f < rows -> g < cols -> m_at (mMul mt (mH m)) f g = sterm part t f g).
    { intros part m Hm f g Hf Hg. rewrite Hm by auto. unfold sterm. apply bsum_ext. intros p Hp. apply in_seq in Hp. rewrite part_nth by lia. ring. }
    pose proof (Ent fst mr M5) as Er. pose proof (Ent snd mi N5) as Ei. clear Ent.
    split; [|split; [|split]].
    - intros _ L1. cbn [sp_re sp_im]. unfold skerAt. rewrite L1. split; reflexivity.
    - cbn [sp_matRe]. destruct (t =? 0); cbn [mAdd m_rows m_cols]; split; auto.
    - intros f g Hf Hg. cbn [sp_matRe]. rewrite seq_S, bsum_app, bsum_cons, bsum_nil. cbn [Nat.add].
      assert (Z : forall x : F, add x zero = x) by (intros; ring). rewrite Z.
      destruct (t =? 0) eqn:T0.
      + apply Nat.eqb_eq in T0. subst t. cbn [seq]. rewrite bsum_nil, Er by auto. ring.
      + cbn [mAdd m_at]. rewrite Iv by auto. f_equal. apply Er; auto.
    - intros f g Hf Hg. cbn [sp_matIm]. rewrite seq_S, bsum_app, bsum_cons, bsum_nil. cbn [Nat.add].
      assert (Z : forall x : F, add x zero = x) by (intros; ring). rewrite Z.
      destruct (t =? 0) eqn:T0.
      + apply Nat.eqb_eq in T0. subst t. cbn [seq]. rewrite bsum_nil, Ei by auto. ring.
      + cbn [mAdd m_at]. rewrite Iw by auto. f_equal. apply Ei; auto.
  Qed.
  Lemma sloop n : n <= length tests -> exists s, loop (seq 0 n) (splitStep testGeom trialGeom tests trials kernels w rows cols)
    (Split (repeat zero (length w)) (repeat zero (length w)) (zeroMat F rows cols) (zeroMat F rows cols)) = Ok s /\ sinv n s.
  Proof.
    induction n as [|n IH]; intros Hn.
    - eexists. split; [reflexivity|]. split; [intros; lia|]. split; [split; reflexivity|]. split; intros; reflexivity.
    - destruct IH as (s & E & I); [lia|]. rewrite seq_S, loop_app, E. cbn [bind loop Nat.add].
      destruct (@sstep n s) as (s' & E' & I'); [lia|auto|]. rewrite E'. cbn [bind]. eexists; split; [reflexivity|auto].
  Qed.
  Notation cTests := (map (@complexify F) tests).
  Notation cTrials := (map (@complexify F) trials).
  Notation cl l := (map (@cre F) l).
  Lemma cx_eta (z : C) : z = (fst z, snd z). Proof. destruct z; reflexivity. Qed.
  Lemma split_entry f g :
    pairEntry cTests cTrials kernels (cl (g_ie testGeom)) (cl (g_ie trialGeom)) (cl w) f g =
    (bsum (seq 0 (length tests)) (fun t => sterm fst t f g), bsum (seq 0 (length tests)) (fun t => sterm snd t f g)).
  Proof.
    assert (E : pairEntry cTests cTrials kernels (cl (g_ie testGeom)) (cl (g_ie trialGeom)) (cl w) f g =
      bsum (seq 0 (length tests)) (fun t => bsum (seq 0 (length w)) (fun p =>
        mul (cre F (mul (mul (mul (nth p (g_ie testGeom) zero) (nth p (g_ie trialGeom) zero)) (nth p w zero))
          (bsum (seq 0 (x0 (nth t tests (d3 F)))) (fun d => mul (conj (a3 (nth t tests (d3 F)) d f p)) (a3 (nth t trials (d3 F)) d g p)))))
          (a3 (skerAt t) 0 0 p)))).
    { unfold pairEntry. rewrite !map_length. symmetry. rewrite bsum_swap. apply bsum_ext. intros p Hp.
      rewrite (@integrand_seq C cTests cTrials _ f g p p (length tests))
        by (rewrite ?map_length, ?kernelsFor_length; auto; symmetry; apply (matching_length (pd_match D))).
      rewrite <- bsum_mul_l. apply bsum_ext. intros t Ht. apply in_seq in Ht.
      rewrite !nth_cre.
      assert (Kt : nth t (map (fun k : arr3 C => a3 k 0 0 p) (kernelsFor (length tests) kernels)) zero = a3 (skerAt t) 0 0 p).
      { rewrite (nth_indep _ zero (a3 (d3 C) 0 0 p)) by (rewrite map_length, kernelsFor_length; auto; lia).
        rewrite (map_nth (fun k => a3 k 0 0 p)). unfold skerAt. rewrite kernelsFor_nth by lia. reflexivity. }
      rewrite Kt.
      assert (Nc : forall l : list (arr3 F), nth t (map (@complexify F) l) (d3 C) = complexify (nth t l (d3 F))) by (intros l; exact (map_nth (@complexify F) l (d3 F) t)).
      rewrite !Nc. change (x0 (complexify (nth t tests (d3 F)))) with (x0 (nth t tests (d3 F))).
      assert (Sd : bsum (seq 0 (x0 (nth t tests (d3 F)))) (fun d => mul (conj (a3 (complexify (nth t tests (d3 F))) d f p)) (a3 (complexify (nth t trials (d3 F))) d g p)) =
        cre F (bsum (seq 0 (x0 (nth t tests (d3 F)))) (fun d => mul (conj (a3 (nth t tests (d3 F)) d f p)) (a3 (nth t trials (d3 F)) d g p)))).
      { rewrite <- cre_bsum. apply bsum_ext. intros d _. rewrite !a3_complexify, cre_conj, cre_mul, Freal. reflexivity. }
      rewrite Sd. rewrite !cre_mul. ring. }
    rewrite E. apply injective_projections; cbn [fst snd].
    - rewrite cx_fst_bsum. apply bsum_ext. intros t _. rewrite cx_fst_bsum. unfold sterm. apply bsum_ext. intros p _. rewrite fst_cre_mul. ring.
    - rewrite cx_snd_bsum. apply bsum_ext. intros t _. rewrite cx_snd_bsum. unfold sterm. apply bsum_ext. intros p _. rewrite snd_cre_mul. ring.
  Qed.
  Theorem nontensorSplit_ok :
    isMatrix (nontensorSplit testGeom trialGeom tests trials kernels w rows cols) rows cols
      (pairEntry cTests cTrials kernels (cl (g_ie testGeom)) (cl (g_ie trialGeom)) (cl w)).
  Proof.
    assert (Pn : 0 < length tests) by (destruct (pd_test D) as [N _]; destruct tests; [congruence | cbn; lia]). pose proof (matching_length (pd_match D)) as Lm.
    unfold nontensorSplit. cbv zeta. rewrite counts_ok by (auto; lia). cbn [assert bind].
    rewrite (values_first (pd_test D)), (values_first (pd_trial D)). cbn [bind].
    rewrite (values_ok (pd_test D)), (values_ok (pd_trial D)), !Nat.eqb_refl.
    rewrite forallb_true.
    2:{ pose proof G as V. unfold grid3 in V. eapply Forall_impl; [|exact V]. cbn. intros k (A & B & C0 & _). rewrite C0, !Nat.eqb_refl. reflexivity. }
    cbn [andb assert bind]. destruct (@sloop (length tests)) as (s & E & I0 & (Ir & Ic) & Iv & Iw); [lia|]. rewrite E. cbn [bind].
    eexists. split; [reflexivity|]. cbn [m_rows m_cols m_at]. split; [auto|]. split; [auto|]. intros f g Hf Hg. rewrite split_entry, Iv, Iw by auto. reflexivity.
  Qed.
End Split.
