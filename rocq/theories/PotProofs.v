(** Proofs about PotModel *)
From Coq Require Import List Arith Bool ZArith Lia.
Import ListNotations.
From Verif Require Import Base ArrayModel AsmModel QuadModel MatAlg PyOpModel LocalCacheProofs PyOpSpec PyOpProofs PyBopModel PyBlockModel PyGfModel PotModel PotSpec.
Set Implicit Arguments.

Section Proofs.
  Variable K : star_ring.
  Variable pinv : mat K -> mat K.
  Hypothesis HG : goodInverse pinv.
  Variable T : Type.
  Variable teq : T -> T -> bool.
  Hypothesis TE : forall a b, teq a b = true <-> a = b.
  Notation pexpr := (pexpr K T). Notation pot := (pot K T).

  Lemma pointsEq_refl (x : points T) : pointsEq x x. Proof. split; [reflexivity|]. split; [reflexivity|]. auto. Qed.
  Lemma pointsEq_sym (x y : points T) : pointsEq x y -> pointsEq y x.
  Proof. intros (A & B & C). split; [congruence|]. split; [congruence|]. intros i j Hi Hj. symmetry. apply C; congruence. Qed.
  Lemma pointsEq_trans (x y z : points T) : pointsEq x y -> pointsEq y z -> pointsEq x z.
  Proof. intros (A & B & C) (D & E & F). split; [congruence|]. split; [congruence|]. intros i j Hi Hj. rewrite C by assumption. apply F; congruence. Qed.
  Lemma bidx_id m i : i < m -> bidx m i = i.
  Proof. unfold bidx. destruct (Nat.eqb_spec m 1); lia. Qed.
  (** with equally many points, equal arrays are those found equal *)
  Lemma samePoints_yes x y : pointsEq x y -> samePoints teq x y = Ok true.
  Proof.
    intros (A & B & C). unfold samePoints, bcast. rewrite A, B, !Nat.eqb_refl. f_equal. apply forallb_forall. intros i Hi. apply forallb_forall. intros j Hj.
    apply in_seq in Hi, Hj. rewrite !bidx_id by lia. apply TE. apply C; lia.
  Qed.
  Lemma samePoints_no x y : pt_rows x = pt_rows y -> pt_cols x = pt_cols y -> samePoints teq x y = Ok true -> pointsEq x y.
  Proof.
    intros A B. unfold samePoints, bcast. rewrite A, B, !Nat.eqb_refl. intros [= H]. split; [assumption|]. split; [assumption|]. intros i j Hi Hj.
    rewrite forallb_forall in H. specialize (H i ltac:(apply in_seq; lia)). rewrite forallb_forall in H. specialize (H j ltac:(apply in_seq; lia)). rewrite !bidx_id in H by lia. apply TE, H.
  Qed.

  Fixpoint plain (o : dop K) : Prop := match o with Nonlocal _ => True | Sum a b => plain a /\ plain b | Scaled a _ => plain a | _ => False end.
  Definition good (p : pot) (m : mat K) : Prop :=
    wf (p_op p) /\ plain (p_op p) /\ meq (den pinv (p_op p)) m /\ 0 < p_comps p /\
    shape (p_op p) = (p_comps p * pt_cols (p_points p), s_dofs (p_space p)).
  Lemma good_scale p m c : good p m -> good (potScale p c) (mScale c m).
  Proof.
    intros (A & B & C & D & E). destruct (@pyScale_ok K pinv (p_op p) c A) as (W & S & M & _). unfold potScale, good. cbn [p_op p_comps p_points p_space].
    split; [exact W|]. split; [destruct (p_op p); cbn in *; auto|]. split; [|split; [assumption|congruence]].
    eapply meq_trans; [exact M|]. destruct C as (C1 & C2 & C3). split; [exact C1|]. split; [exact C2|]. cbn. intros. f_equal. apply C3; assumption.
  Qed.
  Lemma good_neg p m : good p m -> good (potNeg p) (mOpp m).
  Proof.
    intros G. apply (good_scale (opp one)) in G. destruct G as (A & B & C & D). split; [exact A|]. split; [exact B|]. split; [|exact D].
    eapply meq_trans; [exact C|]. apply mScale_opp.
  Qed.
  Definition alike (p q : pot) : Prop := p_comps p = p_comps q /\ pointsEq (p_points p) (p_points q) /\ s_dofs (p_space p) = s_dofs (p_space q).
  Lemma add_good p q m n : good p m -> good q n -> alike p q ->
    exists o, potAdd teq p q = Ok o /\ good o (mAdd m n) /\ p_comps o = p_comps p /\ p_space o = p_space p /\ p_points o = p_points p.
  Proof.
    intros (A & B & C & D & E) (A' & B' & C' & D' & E') (X & Y & Z). unfold potAdd, isCompatible. rewrite X, Nat.eqb_refl. cbn [negb]. rewrite samePoints_yes by assumption. cbn [bind].
    replace (compat (p_space p) (p_space q)) with true by (symmetry; apply Nat.eqb_eq; exact Z). cbn [andb negb].
    assert (SS : shape (p_op p) = shape (p_op q)). { rewrite E, E', X, Z. destruct Y as (_ & Y & _). congruence. }
    destruct (@pyAdd_ok K pinv _ _ A A' SS) as (o & Eo & W & M & _). rewrite Eo. cbn [bind]. eexists. split; [reflexivity|]. cbn [p_comps p_space p_points]. split; [|auto].
    assert (EQ : o = Sum (p_op p) (p_op q)).
    { unfold pyAdd in Eo. rewrite SS, !Nat.eqb_refl in Eo. cbn [andb] in Eo. destruct (p_op p), (p_op q); cbn in B, B'; try contradiction; injection Eo as <-; reflexivity. }
    split; [exact W|]. cbn [p_op p_comps p_points p_space]. subst o. split; [split; assumption|]. split; [|split; [lia|cbn; congruence]].
    eapply meq_trans; [exact M|]. destruct (@den_shape K pinv HG _ A), (@den_shape K pinv HG _ A'). apply meq_add; [congruence|congruence|exact C|exact C'].
  Qed.
  Lemma add_bad p q m n : good p m -> good q n -> pt_rows (p_points p) = pt_rows (p_points q) -> ~ alike p q -> potAdd teq p q = Throws.
  Proof.
    intros (A & B & C & D & E) (A' & B' & C' & D' & E') RW N. unfold potAdd, isCompatible. destruct (Nat.eqb_spec (p_comps p) (p_comps q)) as [X|X]; [|reflexivity]. cbn [negb].
    destruct (samePoints teq (p_points p) (p_points q)) as [b| |] eqn:SP; [|reflexivity|]; cycle 1.
    { unfold samePoints in SP. destruct (bcast (pt_rows _) _); [|discriminate]. destruct (bcast (pt_cols _) _); discriminate. }
    cbn [bind]. destruct (b && compat (p_space p) (p_space q)) eqn:BC; [|reflexivity]. cbn [negb]. apply andb_true_iff in BC as [-> CP]. apply Nat.eqb_eq in CP.
    destruct (Nat.eq_dec (pt_cols (p_points p)) (pt_cols (p_points q))) as [Y|Y].
    - exfalso. apply N. split; [assumption|]. split; [|assumption]. apply samePoints_no; assumption.
    - unfold pyAdd. rewrite E, E'. cbn [fst snd]. replace (p_comps p * pt_cols (p_points p) =? p_comps q * pt_cols (p_points q)) with false.
      + destruct (p_op p), (p_op q); cbn in B, B'; try contradiction; reflexivity.
      + symmetry. apply Nat.eqb_neq. rewrite X. intros H. apply Y. apply Nat.mul_cancel_l in H; lia.
  Qed.
  Lemma neg_alike p q : alike p q -> alike p (potNeg q). Proof. auto. Qed.

  Lemma build_same e n d x : pSized e -> sameKind n d x e ->
    exists p, pbuild teq e = Ok p /\ good p (pmatrix e) /\ p_comps p = n /\ s_dofs (p_space p) = d /\ pointsEq (p_points p) x.
  Proof.
    induction e as [m k s y|a IHa b IHb|a IHa b IHb|a IHa c|a IHa]; cbn [pSized sameKind bases pbuild pmatrix].
    - intros (A & B & C) (-> & D & E). eexists. split; [reflexivity|]. cbn. split; [|auto]. split; [exact I|]. split; [exact I|]. cbn. split; [apply meq_refl|]. split; [assumption|congruence].
    - intros [Sa Sb] [Ka Kb]. destruct (IHa Sa Ka) as (p & Ep & Gp & P1 & P2 & P3). destruct (IHb Sb Kb) as (q & Eq & Gq & Q1 & Q2 & Q3). rewrite Ep, Eq. cbn [bind].
      destruct (add_good Gp Gq) as (o & Eo & Go & O1 & O2 & O3); [split; [congruence|split; [eapply pointsEq_trans; [exact P3|apply pointsEq_sym; exact Q3]|congruence]]|].
      exists o. rewrite O1, O2, O3. auto.
    - intros [Sa Sb] [Ka Kb]. destruct (IHa Sa Ka) as (p & Ep & Gp & P1 & P2 & P3). destruct (IHb Sb Kb) as (q & Eq & Gq & Q1 & Q2 & Q3). rewrite Ep, Eq. cbn [bind].
      destruct (add_good Gp (good_neg Gq)) as (o & Eo & Go & O1 & O2 & O3); [split; [cbn; congruence|split; [eapply pointsEq_trans; [exact P3|apply pointsEq_sym; exact Q3]|cbn; congruence]]|].
      exists o. rewrite O1, O2, O3. auto.
    - intros Sa Ka. destruct (IHa Sa Ka) as (p & Ep & Gp & P1 & P2 & P3). rewrite Ep. cbn [bind]. eexists. split; [reflexivity|]. split; [apply good_scale; exact Gp|auto].
    - intros Sa Ka. destruct (IHa Sa Ka) as (p & Ep & Gp & P1 & P2 & P3). rewrite Ep. cbn [bind]. eexists. split; [reflexivity|]. split; [apply good_neg; exact Gp|auto].
  Qed.
  (** potentials that can be built are linear combinations of potentials of one kind, when all points have as many coordinates *)
  Lemma build_kind e r : pSized e -> bases (fun _ _ _ x => pt_rows x = r) e -> forall p, pbuild teq e = Ok p ->
    good p (pmatrix e) /\ pt_rows (p_points p) = r /\ sameKind (p_comps p) (s_dofs (p_space p)) (p_points p) e.
  Proof.
    assert (CH : forall n d (x x' : points T) (a : pexpr), pointsEq x x' -> sameKind n d x a -> sameKind n d x' a).
    { intros n d x x' a X. induction a; cbn; try tauto. intros (A & B & C). split; [assumption|]. split; [assumption|]. eapply pointsEq_trans; eassumption. }
    induction e as [m k s y|a IHa b IHb|a IHa b IHb|a IHa c|a IHa]; cbn [pSized sameKind bases pbuild pmatrix].
    - intros (A & B & C) R p [= <-]. cbn. split; [|split; [assumption|split; [reflexivity|split; [reflexivity|apply pointsEq_refl]]]]. split; [exact I|]. split; [exact I|]. cbn. split; [apply meq_refl|]. split; [assumption|congruence].
    - intros [Sa Sb] [Ra Rb] o H. apply bind_ok in H as (p & Ep & H). apply bind_ok in H as (q & Eq & H). destruct (IHa Sa Ra p Ep) as (Gp & P1 & P2). destruct (IHb Sb Rb q Eq) as (Gq & Q1 & Q2).
      assert (AL : alike p q). { destruct (Nat.eq_dec (p_comps p) (p_comps q)) as [X|X].
        - destruct (Nat.eq_dec (s_dofs (p_space p)) (s_dofs (p_space q))) as [Y|Y].
          + destruct (samePoints teq (p_points p) (p_points q)) as [[|]| |] eqn:SP; try (exfalso; unfold potAdd, isCompatible in H; rewrite X, Nat.eqb_refl in H; cbn [negb] in H; rewrite SP in H; discriminate).
            destruct (Nat.eq_dec (pt_cols (p_points p)) (pt_cols (p_points q))) as [Z|Z]; [split; [assumption|split; [apply samePoints_no; congruence|assumption]]|].
            exfalso. rewrite (@add_bad p q _ _ Gp Gq) in H; [discriminate|congruence|]. intros (_ & (_ & W & _) & _). contradiction.
          + exfalso. rewrite (@add_bad p q _ _ Gp Gq) in H; [discriminate|congruence|]. intros (_ & _ & W). contradiction.
        - exfalso. rewrite (@add_bad p q _ _ Gp Gq) in H; [discriminate|congruence|]. intros (W & _). contradiction. }
      destruct (add_good Gp Gq AL) as (o' & Eo & Go & O1 & O2 & O3). rewrite H in Eo. injection Eo as <-. rewrite O1, O2, O3. destruct AL as (A1 & A2 & A3).
      split; [assumption|]. split; [assumption|]. split; [exact P2|]. rewrite A1, A3. eapply CH; [apply pointsEq_sym; exact A2|exact Q2].
    - intros [Sa Sb] [Ra Rb] o H. apply bind_ok in H as (p & Ep & H). apply bind_ok in H as (q & Eq & H). destruct (IHa Sa Ra p Ep) as (Gp & P1 & P2). destruct (IHb Sb Rb q Eq) as (Gq & Q1 & Q2).
      unfold potSub in H. apply good_neg in Gq.
      assert (AL : alike p (potNeg q)). { destruct (Nat.eq_dec (p_comps p) (p_comps q)) as [X|X].
        - destruct (Nat.eq_dec (s_dofs (p_space p)) (s_dofs (p_space q))) as [Y|Y].
          + destruct (samePoints teq (p_points p) (p_points q)) as [[|]| |] eqn:SP; try (exfalso; unfold potAdd, isCompatible in H; cbn [potNeg potScale p_comps p_points p_space] in H; rewrite X, Nat.eqb_refl in H; cbn [negb] in H; rewrite SP in H; discriminate).
            destruct (Nat.eq_dec (pt_cols (p_points p)) (pt_cols (p_points q))) as [Z|Z]; [split; [assumption|split; [apply samePoints_no; cbn; congruence|assumption]]|].
            exfalso. rewrite (@add_bad p _ _ _ Gp Gq) in H; [discriminate|cbn; congruence|]. intros (_ & (_ & W & _) & _). contradiction.
          + exfalso. rewrite (@add_bad p _ _ _ Gp Gq) in H; [discriminate|cbn; congruence|]. intros (_ & _ & W). contradiction.
        - exfalso. rewrite (@add_bad p _ _ _ Gp Gq) in H; [discriminate|cbn; congruence|]. intros (W & _). contradiction. }
      destruct (add_good Gp Gq AL) as (o' & Eo & Go & O1 & O2 & O3). rewrite H in Eo. injection Eo as <-. rewrite O1, O2, O3. destruct AL as (A1 & A2 & A3). cbn in A1, A2, A3.
      split; [assumption|]. split; [assumption|]. split; [exact P2|]. rewrite A1, A3. eapply CH; [apply pointsEq_sym; exact A2|exact Q2].
    - intros Sa Ra o H. apply bind_ok in H as (p & Ep & [= <-]). destruct (IHa Sa Ra p Ep) as (Gp & P1 & P2). split; [apply good_scale; exact Gp|auto].
    - intros Sa Ra o H. apply bind_ok in H as (p & Ep & [= <-]). destruct (IHa Sa Ra p Ep) as (Gp & P1 & P2). split; [apply good_neg; exact Gp|auto].
  Qed.
  Lemma apply_bad p m (c : mat K) : good p m -> m_cols c = 1 -> m_rows c <> s_dofs (p_space p) -> dot pinv (p_op p) c = Throws.
  Proof.
    intros (A & B & C & D & E) C1 R. unfold dot. rewrite C1. cbn [Nat.eqb negb].
    assert (SH : m_rows c <> snd (shape (p_op p))) by (rewrite E; exact R). clear - A B SH. destruct (p_op p); cbn in B; try contradiction; cbn [raw shape snd] in *.
    - unfold npDot. apply Nat.eqb_neq in SH. rewrite Nat.eqb_sym, SH. reflexivity.
    - unfold checkVec. apply Nat.eqb_neq in SH. rewrite SH. reflexivity.
    - unfold checkVec. apply Nat.eqb_neq in SH. rewrite SH. reflexivity.
  Qed.
End Proofs.
