From Coq Require Import List Arith Bool Lia.
Import ListNotations.
From Verif Require Import Base ArrayModel AsmModel QuadModel MatAlg PyOpModel PyOpSpec PyBopModel PyBlockModel PyBlockSpec PyOpProofs PyBopProofs PyBlockProofs PyGfModel PyGfSpec.
Set Implicit Arguments.

Section P.
  Variable K : star_ring.
  Variable mass : space -> space -> mat K.
  Variable pinv : mat K -> mat K.
  Notation vec := (mat K).
  Hypothesis HM : forall s t, m_rows (mass s t) = s_dofs t /\ m_cols (mass s t) = s_dofs s.
  Hypothesis HG : goodInverse pinv.
  Lemma HP a : m_rows (pinv a) = m_cols a /\ m_cols (pinv a) = m_rows a. Proof. destruct (HG a) as (A & B & _). auto. Qed.
  Variable P : space -> space -> Prop.
  Notation coefficients := (coefficients mass pinv).
  Notation projections := (projections mass pinv).

  Definition projOK (s d : space) (p v : vec) : Prop :=
    vecFor d p /\ (meq p (mMul (mass s d) v) \/ (meq (mMul (pinv (mass s d)) p) v /\ P s d)).
  Definition ginv (g : gf K) (f : fn K) : Prop :=
    g_space g = fst f /\ vecFor (fst f) (snd f) /\
    (forall p, g_proj g = Some p -> projOK (fst f) (g_dual g) p (snd f)) /\
    match g_coeffs g with
    | Some c => g_repr g = Primal /\ meq c (snd f)
    | None => g_repr g = Dual /\ exists p, g_proj g = Some p /\ vecFor (g_dual g) p /\ meq (mMul (pinv (mass (fst f) (g_dual g))) p) (snd f) /\ P (fst f) (g_dual g)
    end.

  Lemma F2_nth A B (R : A -> B -> Prop) l m : Forall2 R l m -> forall i b, nth_error m i = Some b -> exists a, nth_error l i = Some a /\ R a b.
  Proof. induction 1; intros [|i] z; cbn; try discriminate; [intros [= <-]; eauto | apply IHForall2]. Qed.
  Lemma F2_nth' A B (R : A -> B -> Prop) l m : Forall2 R l m -> forall i a, nth_error l i = Some a -> exists b, nth_error m i = Some b /\ R a b.
  Proof. induction 1; intros [|i] z; cbn; try discriminate; [intros [= <-]; eauto | apply IHForall2]. Qed.
  Lemma nth_gmodify (h : gheap K) i f k : nth_error (gmodify h i f) k = if k =? i then option_map f (nth_error h k) else nth_error h k.
  Proof.
    revert i k. induction h as [|o h IH]; intros i k; cbn [gmodify].
    - destruct (k =? i); destruct k; reflexivity.
    - destruct i, k; cbn; auto.
  Qed.
  Lemma F2_gmodify h l i f : Forall2 ginv h l -> (forall g x, nth_error h i = Some g -> nth_error l i = Some x -> ginv g x -> ginv (f g) x) -> Forall2 ginv (gmodify h i f) l.
  Proof.
    intros F. revert i. induction F as [|g x h l G F IH]; intros i H; cbn [gmodify]; [constructor|].
    destruct i; constructor; auto.
  Qed.

  Lemma dot_sparse a (x : vec) : m_cols x = 1 -> m_cols a = m_rows x -> dot pinv (Sparse a) x = Ok (mMul a x).
  Proof. intros H E. unfold dot. rewrite H. cbn. apply npDot_ok. assumption. Qed.
  Lemma dot_inverse a (x : vec) : m_cols x = 1 -> m_rows a = m_rows x -> dot pinv (Inverse a) x = Ok (mMul (pinv a) x).
  Proof. intros H E. unfold dot. rewrite H. cbn. apply npDot_ok. destruct (HP a). congruence. Qed.

  Lemma vec_coeff s d p : vecFor d p -> vecFor s (mMul (pinv (mass s d)) p).
  Proof. intros [A B]. split; cbn; auto. destruct (HP (mass s d)), (HM s d). congruence. Qed.
  Lemma vec_proj s d v : vecFor s v -> vecFor d (mMul (mass s d) v).
  Proof. intros [A B]. split; cbn; auto. destruct (HM s d). congruence. Qed.
  Lemma vec_meq s (v w : vec) : meq v w -> vecFor s w -> vecFor s v.
  Proof. intros (A & B & _) [C D]. split; congruence. Qed.

  (** what a read leaves alone *)
  Definition keeps (h h' : gheap K) : Prop :=
    forall j g', nth_error h' j = Some g' -> exists g, nth_error h j = Some g /\ g_space g = g_space g' /\ (g_repr g' = Dual -> g' = g).
  Lemma keeps_refl h : keeps h h. Proof. intros j g' H. eauto. Qed.
  Lemma keeps_trans h1 h2 h3 : keeps h1 h2 -> keeps h2 h3 -> keeps h1 h3.
  Proof.
    intros A B j g3 H. destruct (B _ _ H) as (g2 & H2 & S2 & D2). destruct (A _ _ H2) as (g1 & H1 & S1 & D1).
    exists g1. split; [assumption|]. split; [congruence|]. intro D. specialize (D2 D). subst g3. apply D1, D.
  Qed.
  Lemma keeps_safe h h' i d : keeps h h' -> safeQuery h i d -> safeQuery h' i d.
  Proof.
    intros KP SQ g' t H D E. destruct (KP _ _ H) as (g & Hg & _ & Q). specialize (Q D). subst g'. apply (SQ g t Hg D E).
  Qed.

  Lemma coefficients_ok h l i s v : Forall2 ginv h l -> nth_error l i = Some (s, v) ->
    exists c h', coefficients i h = (h', Ok c) /\ meq c v /\ Forall2 ginv h' l /\ keeps h h' /\ length h' = length h /\
      (exists g', nth_error h' i = Some g' /\ g_repr g' = Primal) /\
      (forall j g', nth_error h' j = Some g' -> exists g, nth_error h j = Some g /\ g_dual g = g_dual g').
  Proof.
    intros F E. destruct (F2_nth F _ E) as (g & Eg & G). unfold PyGfModel.coefficients. rewrite Eg.
    pose proof G as (Gs & Gv & Gp & Gc). cbn [fst snd] in *. destruct (g_coeffs g) as [c|] eqn:C.
    - exists c, h. destruct Gc as [R M]. repeat (split; eauto using keeps_refl).
    - destruct Gc as (R & p & Ep & Vp & M & HPd). rewrite Ep, Gs. unfold computeCoefficients.
      rewrite dot_inverse; [| apply Vp | destruct (HM s (g_dual g)), Vp; congruence].
      exists (mMul (pinv (mass s (g_dual g))) p).
      eexists. split; [reflexivity|]. split; [assumption|]. split; [|split; [|split; [|split]]].
      + apply F2_gmodify; [assumption|]. intros g0 x H1 H2 _. rewrite Eg in H1. injection H1 as <-. rewrite E in H2. injection H2 as <-.
        split; [assumption|]. cbn. repeat (split; auto).
      + intros j g' H. rewrite nth_gmodify in H. destruct (Nat.eqb_spec j i) as [-> | N].
        * rewrite Eg in H. cbn in H. injection H as <-. exists g. cbn. split; [assumption|]. split; [reflexivity|discriminate].
        * eauto.
      + clear. revert i. induction h; intros [|i]; cbn; auto.
      + eexists. rewrite nth_gmodify, Nat.eqb_refl, Eg. cbn. split; reflexivity.
      + intros j g' H. rewrite nth_gmodify in H. destruct (Nat.eqb_spec j i) as [-> | N].
        * rewrite Eg in H. cbn in H. injection H as <-. exists g. cbn. auto.
        * eauto.
  Qed.

  Definition target (g : gf K) (d : option space) : space := match d with Some t => t | None => g_dual g end.
  Lemma projections_ok h l i d s v : Forall2 ginv h l -> nth_error l i = Some (s, v) -> safeQuery h i d ->
    exists g p h', nth_error h i = Some g /\ projections i d h = (h', Ok p) /\ projOK s (target g d) p v /\ Forall2 ginv h' l /\ keeps h h' /\
      (g_repr g = Dual -> h' = h /\ g_proj g = Some p).
  Proof.
    intros F E SQ. destruct (F2_nth F _ E) as (g & Eg & G). unfold PyGfModel.projections. rewrite Eg. fold (target g d).
    pose proof G as (Gs & Gv & Gp & Gc). cbn [fst snd] in *.
    exists g. set (t := target g d) in *.
    destruct (if speq t (g_dual g) then g_proj g else None) as [p|] eqn:Q.
    - destruct (speq t (g_dual g)) eqn:Z; [|discriminate]. apply speq_eq in Z. rewrite Z.
      exists p, h. repeat (split; auto using keeps_refl).
    - assert (PR : exists c, g_coeffs g = Some c /\ g_repr g = Primal /\ meq c v).
      { destruct (g_coeffs g) as [c|]; [exists c; tauto|]. exfalso. destruct Gc as (R & p & Ep & _).
        assert (t = g_dual g) as Z. { unfold t, target. destruct d as [t'|]; [|reflexivity]. apply (SQ g t'); auto. }
        rewrite Z in Q. replace (speq (g_dual g) (g_dual g)) with true in Q; [congruence|].
        unfold speq. rewrite !Nat.eqb_refl. reflexivity. }
      destruct PR as (c & Ec & Er & M).
      unfold gthen, gret. unfold PyGfModel.coefficients. rewrite nth_gmodify, Nat.eqb_refl, Eg. cbn [option_map g_coeffs]. rewrite Ec. cbn [g_coeffs].
      assert (vecFor s c) as Vc by (eapply vec_meq; eauto).
      rewrite Gs. rewrite dot_sparse; [| apply Vc | destruct (HM s t), Vc; congruence].
      exists (mMul (mass s t) c). eexists. split; [reflexivity|]. split; [reflexivity|].
      assert (projOK s t (mMul (mass s t) c) v) as PO.
      { split; [apply vec_proj; assumption|]. left. apply meq_mul; [|apply meq_refl|assumption]. destruct (HM s t), Vc. congruence. }
      split; [assumption|]. split; [|split].
      + assert (forall (h : gheap K) f1 f2, gmodify (gmodify h i f1) i f2 = gmodify h i (fun g => f2 (f1 g))) as GG.
        { clear. intros h f1 f2. revert i. induction h; intros [|i]; cbn; auto. f_equal. auto. }
        rewrite GG. apply F2_gmodify; [assumption|]. intros g0 x H1 H2 _. rewrite Eg in H1. injection H1 as <-. rewrite E in H2. injection H2 as <-.
        split; [assumption|]. cbn. rewrite Ec. split; [assumption|]. split; [|split; assumption]. intros q Hq. injection Hq as <-. exact PO.
      + intros j g' H. rewrite !nth_gmodify in H. destruct (Nat.eqb_spec j i) as [-> | N].
        * rewrite Eg in H. cbn in H. injection H as <-. exists g. cbn. split; [assumption|]. split; [reflexivity|]. intro. congruence.
        * eauto.
      + intro R. congruence.
  Qed.

  Lemma F2_snoc h l g x : Forall2 ginv h l -> ginv g x -> Forall2 ginv (h ++ [g]) (l ++ [x]).
  Proof. intros F G. apply Forall2_app; auto. Qed.
  Lemma ginv_coeff s d c v : vecFor s v -> meq c v -> ginv (fromCoefficients s d c) (s, v).
  Proof. intros V M. split; [reflexivity|]. cbn. repeat (split; auto); try apply V; discriminate. Qed.
  Lemma ginv_proj s d p v : vecFor (dualOf s d) p -> meq (mMul (pinv (mass s (dualOf s d))) p) v -> P s (dualOf s d) -> ginv (fromProjections s d p) (s, v).
  Proof.
    intros V M HPd. split; [reflexivity|]. split; [|split].
    - apply meq_sym in M. eapply vec_meq; [exact M|]. apply vec_coeff. assumption.
    - cbn. intros q [= <-]. split; [assumption|]. right. split; assumption.
    - cbn. split; [reflexivity|]. exists p. auto.
  Qed.

  Lemma ginv_meq g s v w : meq v w -> ginv g (s, v) -> ginv g (s, w).
  Proof.
    intros M (A & B & C & D). cbn [fst snd] in *. split; [assumption|]. cbn [fst snd]. split; [eapply vec_meq; [apply meq_sym; exact M|assumption]|]. split.
    - intros p E. destruct (C p E) as [V [Q | [Q R]]]; split; auto.
      + left. eapply meq_trans; [exact Q|]. apply meq_mul; [|apply meq_refl|assumption]. destruct (HM s (g_dual g)), B. congruence.
      + right. split; [eapply meq_trans; eauto|assumption].
    - destruct (g_coeffs g).
      + destruct D. split; [assumption|eapply meq_trans; eauto].
      + destruct D as (R & p & E & V & Q & Z). split; [assumption|]. exists p. split; [assumption|]. split; [assumption|]. split; [eapply meq_trans; eauto|assumption].
  Qed.

  Lemma scale_ok h l i a s v : Forall2 ginv h l -> nth_error l i = Some (s, v) ->
    exists h', gScale mass pinv i a h = (h', Ok (length h)) /\ Forall2 ginv h' (l ++ [(s, mScale a v)]).
  Proof.
    intros F E. destruct (F2_nth F _ E) as (g & Eg & G). unfold gScale. rewrite Eg.
    pose proof G as (Gs & Gv & Gp & Gc). cbn [fst snd] in *. destruct (g_repr g) eqn:R.
    - destruct (coefficients_ok _ F E) as (c & h' & Q & M & F' & KP & LEN & _). unfold gthen. rewrite Q. unfold alloc. rewrite LEN.
      eexists. split; [reflexivity|]. apply F2_snoc; [assumption|]. rewrite Gs. apply ginv_coeff; [|apply meq_scale; assumption].
      split; apply Gv.
    - destruct (g_coeffs g); [destruct Gc; discriminate|]. destruct Gc as (_ & p & Ep & Vp & M & HPd). rewrite Ep. unfold alloc.
      eexists. split; [reflexivity|]. apply F2_snoc; [assumption|]. rewrite Gs. apply ginv_proj; cbn [dualOf]; [split; apply Vp | | assumption].
      eapply meq_trans; [apply mMul_scale_r|]. apply meq_scale. assumption.
  Qed.
  Lemma add_vec s (v w x y : vec) : vecFor s v -> vecFor s w -> meq x v -> meq y w -> exists z, npAdd x y = Ok z /\ meq z (mAdd v w).
  Proof.
    intros [V1 V2] [W1 W2] M N. pose proof M as (M1 & M2 & _). pose proof N as (N1 & N2 & _).
    destruct (@npAdd_same K x y) as (z & Z & MZ); [congruence..|]. exists z. split; [assumption|].
    eapply meq_trans; [exact MZ|]. apply meq_add; auto; congruence.
  Qed.
  Lemma add_ok h l i j s v w : Forall2 ginv h l -> nth_error l i = Some (s, v) -> nth_error l j = Some (s, w) ->
    exists h' k, gAdd mass pinv i j h = (h', Ok k) /\ Forall2 ginv h' (l ++ [(s, mAdd v w)]).
  Proof.
    intros F E1 E2. destruct (F2_nth F _ E1) as (f & Ef & G1). destruct (F2_nth F _ E2) as (g & Eg & G2). unfold gAdd. rewrite Ef, Eg.
    pose proof G1 as (Gs & Gv & Gp & Gc). pose proof G2 as (Gs' & Gv' & Gp' & Gc'). cbn [fst snd] in *. rewrite Gs, Gs'.
    replace (speq s s) with true by (unfold speq; rewrite !Nat.eqb_refl; reflexivity). cbn [negb].
    assert (exists h' k, gthen (coefficients i) (fun c => gthen (coefficients j) (fun c' =>
      gthen (gret (npAdd c c')) (fun v0 => alloc (fromCoefficients s None v0)))) h = (h', Ok k) /\ Forall2 ginv h' (l ++ [(s, mAdd v w)])) as PRIM.
    { destruct (coefficients_ok _ F E1) as (c & h1 & Q & M & F1 & _). destruct (coefficients_ok _ F1 E2) as (c' & h2 & Q' & M' & F2 & _).
      destruct (add_vec Gv Gv' M M') as (z & Z & MZ). unfold gthen, gret. rewrite Q, Q', Z. unfold alloc. do 2 eexists. split; [reflexivity|].
      apply F2_snoc; [assumption|]. apply ginv_coeff; [split; apply Gv|assumption]. }
    destruct (g_repr f) eqn:R1; [exact PRIM|]. destruct (g_repr g) eqn:R2; [exact PRIM|].
    destruct (speq (g_dual f) (g_dual g)) eqn:D; [|exact PRIM]. apply speq_eq in D.
    destruct (g_coeffs f); [destruct Gc; discriminate|]. destruct (g_coeffs g); [destruct Gc'; discriminate|].
    destruct Gc as (_ & p & Ep & Vp & M & HPd). destruct Gc' as (_ & p' & Ep' & Vp' & M' & HPd').
    destruct (@projections_ok h l i None s v F E1) as (f1 & q & h1 & Ef1 & Q & _ & F1 & _ & KQ); [discriminate|].
    rewrite Ef in Ef1. injection Ef1 as <-. destruct (KQ R1) as [-> Eq]. rewrite Ep in Eq. injection Eq as <-.
    destruct (@projections_ok h l j None s w F E2) as (g1 & q & h1 & Eg1 & Q' & _ & F1' & _ & KQ'); [discriminate|].
    rewrite Eg in Eg1. injection Eg1 as <-. destruct (KQ' R2) as [-> Eq]. rewrite Ep' in Eq. injection Eq as <-.
    unfold gthen, gret. rewrite Q, Q'. rewrite <- D in Vp'.
    destruct (add_vec Vp Vp' (meq_refl p) (meq_refl p')) as (z & Z & MZ). rewrite Z. unfold alloc. do 2 eexists. split; [reflexivity|].
    apply F2_snoc; [assumption|]. apply ginv_proj; cbn [dualOf].
    - eapply vec_meq; [exact MZ|]. split; apply Vp.
    - assert (m_cols (pinv (mass s (g_dual f))) = m_rows p) as CP. { destruct (HP (mass s (g_dual f))), (HM s (g_dual f)), Vp. congruence. }
      eapply meq_trans; [apply meq_mul; [|apply meq_refl|exact MZ]|].
      { destruct MZ as (A & _). rewrite A. exact CP. }
      eapply meq_trans; [apply mMul_add_r|]. rewrite <- D in M'.
      apply meq_add; auto; cbn. destruct Vp, Vp'. congruence.
    - assumption.
  Qed.

  Lemma apply_ok h l i d r t s v e m : Forall2 ginv h l -> nth_error l i = Some (s, v) -> s_dofs s = s_dofs d ->
    adjointable e -> value pinv e = Some m -> m_rows m = s_dofs t -> m_cols m = s_dofs d -> P r t ->
    exists h' g p, applyOp mass pinv d r t (build e) i h = (h', Ok (length h)) /\ Forall2 ginv h' (l ++ [(r, mMul (pinv (mass r t)) (mMul m v))]) /\
      nth_error h' (length h) = Some g /\ g = fromProjections r (Some t) p /\ meq p (mMul m v).
  Proof.
    intros F E SD AD V MR MC HPd. destruct (F2_nth F _ E) as (g & Eg & G). pose proof G as (Gs & Gv & _). cbn [fst snd] in *.
    assert (compat d s = true) as CP by (apply Nat.eqb_eq; congruence).
    unfold applyOp. rewrite Eg, Gs, CP. cbn [negb].
    destruct (coefficients_ok _ F E) as (c & h1 & Q & M & F1 & _ & LEN & _).
    destruct (@build_ok K pinv HG _ AD _ V) as (w & B & Wf & D & _).
    destruct (@wf_realises K pinv HG _ _ Wf D) as (_ & RL & _).
    assert (vecFor s c) as Vc by (eapply vec_meq; eauto).
    destruct (RL c) as (p & Ep & Mp); [destruct Vc; congruence | destruct Vc; lia |].
    unfold gthen, gret. rewrite B, Q, Ep. unfold alloc. rewrite LEN.
    assert (meq p (mMul m v)) as Mpv. { eapply meq_trans; [exact Mp|]. apply meq_mul; [destruct Vc; congruence | apply meq_refl | assumption]. }
    assert (vecFor t p) as Vp. { eapply vec_meq; [exact Mpv|]. split; cbn; [assumption|apply Gv]. }
    do 3 eexists. split; [reflexivity|]. split; [|split; [|split; [reflexivity|exact Mpv]]].
    - apply F2_snoc; [assumption|]. apply ginv_proj; cbn [dualOf]; [assumption| |assumption].
      apply meq_mul; [|apply meq_refl|assumption]. destruct (HP (mass r t)), (HM r t), Vp. congruence.
    - rewrite nth_error_app2 by lia. rewrite LEN, Nat.sub_diag. reflexivity.
  Qed.

  Lemma setFn_nth (l : list (fn K)) i v k : nth_error (setFn l i v) k = if k =? i then option_map (fun f => (fst f, v)) (nth_error l k) else nth_error l k.
  Proof.
    revert i k. induction l as [|[s w] l IH]; intros i k; cbn [setFn].
    - destruct (k =? i); destruct k; reflexivity.
    - destruct i, k; cbn; auto.
  Qed.

  Lemma step_ok h l c : Forall2 ginv h l -> fits pinv l c -> safe h c -> (forall s d, givenBy s d c -> P s d) ->
    Forall2 ginv (gstep mass pinv h c) (meansNext mass pinv l c).
  Proof.
    intros F FT SF HPd. assert (LEN : length h = length l) by (clear - F; induction F; cbn; congruence). destruct c as [s d v|s d p|i|i v|i d|i j|i j|i a|d r t e i]; cbn [gstep meansNext].
    - apply F2_snoc; [assumption|]. apply ginv_coeff; [assumption|apply meq_refl].
    - apply F2_snoc; [assumption|]. apply ginv_proj; [assumption|apply meq_refl|]. apply HPd. cbn. auto.
    - destruct (nth_error l i) as [[s v]|] eqn:E.
      + destruct (coefficients_ok _ F E) as (c & h1 & Q & M & F1 & _). rewrite Q. assumption.
      + apply nth_error_None in E. unfold PyGfModel.coefficients. replace (nth_error h i) with (@None (gf K)); [assumption|].
        symmetry. apply nth_error_None. lia.
    - unfold setCoefficients. destruct (nth_error h i) as [g|] eqn:E.
      + cbn [fst]. cbn in FT.
        assert (forall h l, Forall2 ginv h l -> forall i, (forall s w, nth_error l i = Some (s, w) -> vecFor s v) ->
          Forall2 ginv (gmodify h i (fun g => GF (g_space g) (g_dual g) (Some v) None Primal)) (setFn l i v)) as A.
        { clear. induction 1 as [|g [s w] h l G F IH]; intros i H; cbn [gmodify setFn]; [constructor|]. destruct i.
          - constructor; [|assumption]. destruct G as (A & B & _). split; [assumption|]. cbn. split; [apply (H s w eq_refl)|].
            split; [discriminate|]. split; [reflexivity|apply meq_refl].
          - constructor; [assumption|]. apply IH. intros s' w' E. apply (H s' w'). assumption. }
        apply A; assumption.
      + cbn [fst]. apply nth_error_None in E. replace (setFn l i v) with l; [assumption|].
        rewrite LEN in E. clear - E. revert i E. induction l as [|[s w] l IH]; intros i E; cbn; auto. cbn in E. destruct i; [lia|]. f_equal. apply IH. lia.
    - cbn in SF. destruct (nth_error l i) as [[s v]|] eqn:E.
      + destruct (projections_ok F E SF) as (g & p & h1 & Eg & Q & _ & F1 & _). rewrite Q. assumption.
      + apply nth_error_None in E. unfold PyGfModel.projections. replace (nth_error h i) with (@None (gf K)); [assumption|].
        symmetry. apply nth_error_None. lia.
    - destruct (nth_error l i) as [[s v]|] eqn:E1; [destruct (nth_error l j) as [[s' w]|] eqn:E2|].
      + unfold addFn. cbn [fst snd]. destruct (speq s s') eqn:D.
        * apply speq_eq in D. subst s'. destruct (add_ok _ _ F E1 E2) as (h1 & k & Q & F1). rewrite Q. assumption.
        * rewrite app_nil_r. unfold gAdd. destruct (F2_nth F _ E1) as (f & Ef & G1). destruct (F2_nth F _ E2) as (g & Eg & G2). rewrite Ef, Eg.
          destruct G1 as [G1 _], G2 as [G2 _]. cbn in G1, G2. rewrite G1, G2, D. cbn. assumption.
      + apply nth_error_None in E2. unfold gAdd. replace (nth_error h j) with (@None (gf K)); [destruct (nth_error h i); assumption|].
        symmetry. apply nth_error_None. lia.
      + apply nth_error_None in E1. unfold gAdd. replace (nth_error h i) with (@None (gf K)); [assumption|].
        symmetry. apply nth_error_None. lia.
    - destruct (nth_error l i) as [[s v]|] eqn:E1; [destruct (nth_error l j) as [[s' w]|] eqn:E2|].
      + destruct (F2_nth F _ E1) as (f & Ef & G1). destruct (F2_nth F _ E2) as (g & Eg & G2). unfold gSub. rewrite Ef, Eg.
        destruct G1 as [G1 _], G2 as [G2 _]. cbn in G1, G2. cbn [fst snd]. rewrite G1, G2. destruct (speq s s') eqn:D; [|exact F].
        pose proof D as D'. apply speq_eq in D. clear G1 G2. subst s'. cbn [negb]. destruct (scale_ok _ (opp one) F E2) as (h1 & Q & F1'). unfold gthen. rewrite Q.
        assert (Forall2 ginv h1 (l ++ [(s, mOpp w)])) as F1.
        { clear - HM F1'. apply Forall2_app_inv_r in F1' as (ha & hb & Fa & Fb & ->). apply Forall2_app; [assumption|]. inversion Fb; subst.
          constructor; [|assumption]. eapply ginv_meq; [apply mScale_opp|]. assumption. }
        assert (nth_error (l ++ [(s, mOpp w)]) i = Some (s, v)) as E1'. { rewrite nth_error_app1; [assumption|]. apply nth_error_Some. congruence. }
        assert (nth_error (l ++ [(s, mOpp w)]) (length h) = Some (s, mOpp w)) as E2'.
        { rewrite LEN, nth_error_app2, Nat.sub_diag by lia. reflexivity. }
        destruct (add_ok _ _ F1 E1' E2') as (h2 & k & Q2 & F2). rewrite Q2. cbn [fst]. unfold addFn. cbn [fst snd]. rewrite D'.
        rewrite <- app_assoc in F2. exact F2.
      + apply nth_error_None in E2. unfold gSub. replace (nth_error h j) with (@None (gf K)); [destruct (nth_error h i); assumption|].
        symmetry. apply nth_error_None. lia.
      + apply nth_error_None in E1. unfold gSub. replace (nth_error h i) with (@None (gf K)); [assumption|].
        symmetry. apply nth_error_None. lia.
    - destruct (nth_error l i) as [[s v]|] eqn:E.
      + destruct (scale_ok _ a F E) as (h1 & Q & F1). rewrite Q. assumption.
      + apply nth_error_None in E. unfold gScale. replace (nth_error h i) with (@None (gf K)); [assumption|].
        symmetry. apply nth_error_None. lia.
    - destruct FT as (AD & m & V & MR & MC). rewrite V. destruct (nth_error l i) as [[s v]|] eqn:E.
      + cbn [fst snd]. destruct (Nat.eqb_spec (s_dofs d) (s_dofs s)) as [CP|CP].
        * destruct (@apply_ok _ _ _ d r t _ _ _ _ F E (eq_sym CP) AD V MR MC (HPd _ _ (Logic.conj eq_refl eq_refl))) as (h1 & g & p & Q & F1 & _). rewrite Q. assumption.
        * destruct (F2_nth F _ E) as (g & Eg & G). unfold applyOp. rewrite Eg. destruct G as (-> & _). cbn [fst]. assert (compat d s = false) as -> by now apply Nat.eqb_neq. assumption.
      + apply nth_error_None in E. unfold applyOp. replace (nth_error h i) with (@None (gf K)); [assumption|].
        symmetry. apply nth_error_None. lia.
  Qed.

  Lemma run_ok cs : orderly mass pinv cs -> (forall c s d, In c cs -> givenBy s d c -> P s d) -> Forall2 ginv (grun mass pinv cs) (means mass pinv cs).
  Proof.
    induction cs as [|c cs IH] using rev_ind; intros O HPd; [constructor|].
    unfold grun, means. rewrite !fold_left_app. cbn [fold_left]. destruct (O cs c [] eq_refl) as [FT SF]. apply step_ok; auto.
    - apply IH.
      + intros a b d E. apply (O a b (d ++ [c])). rewrite E, <- app_assoc. reflexivity.
      + intros c' s d I. apply HPd. apply in_or_app. auto.
    - intros s d. apply HPd. apply in_or_app. cbn. auto.
  Qed.
End P.
