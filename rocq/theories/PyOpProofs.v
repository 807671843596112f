From Coq Require Import List Arith Bool Lia.
Import ListNotations.
From Verif Require Import Base ArrayModel AsmModel QuadModel QuadProofs LocalCacheProofs MatAlg PyOpModel PyOpSpec.
Set Implicit Arguments.

Section Proofs.
  Variable K : star_ring.
  Add Ring Kring : (sr_ring K).
  Notation matrix := (mat K).
  Variable pinv : matrix -> matrix.
  Hypothesis HP : goodInverse pinv.

  Fixpoint den (o : dop K) : matrix :=
    match o with
    | Nonlocal a | Dense a | Sparse a => a
    | Inverse a => pinv a
    | Zero r c => zeroMat r c
    | RankOne c r => mMul (colVec c) (rowVec r)
    | Sum a b => mAdd (den a) (den b)
    | Prod a b => mMul (den a) (den b)
    | Scaled a c => mScale c (den a)
    end.
  Fixpoint wf (o : dop K) : Prop :=
    match o with
    | Sum a b => wf a /\ wf b /\ shape a = shape b
    | Prod a b => wf a /\ wf b /\ snd (shape a) = fst (shape b)
    | Scaled a _ => wf a
    | _ => True
    end.
  Lemma den_shape o : wf o -> m_rows (den o) = fst (shape o) /\ m_cols (den o) = snd (shape o).
  Proof.
    induction o; cbn; auto.
    - intros _. destruct (HP a) as (A & B & _). auto.
    - intros (A & B & C). auto.
    - intros (A & B & C). destruct (IHo1 A), (IHo2 B). auto.
  Qed.
  Lemma npAdd_same (a b : matrix) : m_rows a = m_rows b -> m_cols a = m_cols b -> exists y, npAdd a b = Ok y /\ meq y (mAdd a b).
  Proof.
    intros R C. unfold npAdd, bcast. rewrite R, C, !Nat.eqb_refl. eexists. split; [reflexivity|].
    split; [auto|]. split; [auto|]. cbn. rewrite <- R, <- C. intros i j Hi Hj. unfold bidx.
    destruct (m_rows a =? 1) eqn:E1, (m_cols a =? 1) eqn:E2; try apply Nat.eqb_eq in E1; try apply Nat.eqb_eq in E2;
      repeat match goal with H : m_rows a = 1 |- _ => replace i with 0 by lia; clear H end;
      repeat match goal with H : m_cols a = 1 |- _ => replace j with 0 by lia; clear H end; reflexivity.
  Qed.
  Lemma npDot_ok (a b : matrix) : m_cols a = m_rows b -> npDot a b = Ok (mMul a b).
  Proof. intros H. unfold npDot. rewrite H, Nat.eqb_refl. reflexivity. Qed.
  Lemma checkVec_ok s (x y : matrix) : m_rows x = snd s -> m_cols x = 1 -> m_rows y = fst s -> m_cols y = 1 ->
    checkVec s x (Ok y) = Ok (Mat (fst s) 1 (m_at y)).
  Proof.
    intros A B C D. unfold checkVec. rewrite A, B, !Nat.eqb_refl. cbn [andb bind]. rewrite C, D, Nat.mul_1_r, Nat.eqb_refl. reflexivity.
  Qed.
  Lemma mapRes_nth A B (f : A -> res B) l : (forall a, In a l -> exists b, f a = Ok b) -> 
    exists r, mapRes f l = Ok r /\ length r = length l /\ forall k a, nth_error l k = Some a -> exists b, nth_error r k = Some b /\ f a = Ok b.
  Proof.
    induction l as [|a l IH]; intros H.
    - exists []. split; [reflexivity|]. split; auto. intros [|k] a; discriminate.
    - destruct (H a (or_introl eq_refl)) as (b & Hb). destruct IH as (r & Hr & L & N); [intros; apply H; right; auto|].
      exists (b :: r). split; [apply mapRes_cons; eauto|]. split; [cbn; auto|]. intros [|k] a'; cbn; [|apply N].
      intros E. injection E as <-. eauto.
  Qed.
  Lemma byColumns_ok s f (d x : matrix) : m_rows d = fst s -> m_cols d = snd s -> m_rows x = snd s -> 0 < m_cols x ->
    (forall v, m_rows v = snd s -> m_cols v = 1 -> exists y, f v = Ok y /\ meq y (mMul d v)) ->
    exists y, byColumns s f x = Ok y /\ meq y (mMul d x).
  Proof.
    intros R C X N F. unfold byColumns.
    assert (G : forall j, exists y, checkVec s (column x j) (f (column x j)) = Ok y /\ meq y (mMul d (column x j))).
    { intros j. destruct (F (column x j)) as (y & Ey & Hy); auto. pose proof Hy as (Hr & Hc & Ha). rewrite Ey.
      rewrite checkVec_ok; auto; [|rewrite Hr; auto]. eexists. split; [reflexivity|].
      split; [cbn; auto|]. split; [reflexivity|]. cbn. intros i k Hi Hk. cbn in Ha. apply Ha; [rewrite Hr; cbn; lia | rewrite Hc; cbn; lia]. }
    destruct (@mapRes_nth _ _ (fun j => checkVec s (column x j) (f (column x j))) (seq 0 (m_cols x))) as (l & El & Ll & Nl).
    { intros j _. destruct (G j) as (y & Ey & _). eauto. }
    rewrite El. cbn [bind]. rewrite seq_length in Ll.
    assert (Nth : forall j, j < m_cols x -> exists y, nth_error l j = Some y /\ meq y (mMul d (column x j))).
    { intros j Hj. destruct (Nl j j) as (b & Hb & Eb); [rewrite nth_error_nth' with (d := 0) by (rewrite seq_length; auto); rewrite seq_nth; auto|].
      destruct (G j) as (y & Ey & Hy). exists b. split; auto. replace b with y by congruence. auto. }
    destruct l as [|c r]; [cbn in Ll; lia|].
    assert (Hc : forall k y, nth_error (c :: r) k = Some y -> m_rows y = m_rows d).
    { intros k y Hk. assert (k < length (c :: r)) by (apply nth_error_Some; congruence).
      destruct (Nth k) as (y' & E & (Hr & _)); [cbn [length] in *; lia|]. rewrite E in Hk. injection Hk as <-. rewrite Hr. reflexivity. }
    unfold hstack. replace (forallb _ r) with true.
    - eexists. split; [reflexivity|]. split; [cbn; apply (Hc 0); reflexivity|]. split; [cbn in Ll |- *; auto|].
      cbn [m_rows m_cols m_at]. intros i j Hi Hj. destruct (Nth j) as (y & E & (Hr & Hcl & Ha)); [cbn [length] in *; lia|].
      rewrite (nth_error_nth (c :: r) j c E). rewrite Ha; [reflexivity| |rewrite Hcl; cbn; lia].
      rewrite Hr. cbn. rewrite <- (Hc 0 c eq_refl). auto.
    - symmetry. apply forallb_forall. intros y Hy. apply In_nth_error in Hy as (k & Hk). apply Nat.eqb_eq.
      rewrite (Hc (S k) y), (Hc 0 c); auto.
  Qed.
  Lemma rank_one_apply (c r : list K) (x : matrix) : m_rows x = length r -> exists y, bind (npDot (rowVec r) x) (npDot (colVec c)) = Ok y /\ meq y (mMul (mMul (colVec c) (rowVec r)) x).
  Proof.
    intros H. rewrite npDot_ok by auto. cbn [bind]. rewrite npDot_ok by reflexivity. eexists. split; [reflexivity|].
    apply meq_sym, mMul_assoc.
  Qed.
  Lemma meq_fix1 s (y z : matrix) : m_rows y = s -> m_cols y = 1 -> meq y z -> meq (Mat s 1 (m_at y)) z.
  Proof. intros R C (A & B & D). split; [cbn; congruence|]. split; [cbn; congruence|]. cbn. intros. apply D; congruence. Qed.

  Lemma raw_ok o : wf o -> forall multi (x : matrix), m_rows x = snd (shape o) -> (multi = false -> m_cols x = 1) -> 0 < m_cols x ->
    exists y, raw pinv multi o x = Ok y /\ meq y (mMul (den o) x).
  Proof.
    assert (PART : forall a, wf a -> (forall multi (x : matrix), m_rows x = snd (shape a) -> (multi = false -> m_cols x = 1) -> 0 < m_cols x ->
        exists y, raw pinv multi a x = Ok y /\ meq y (mMul (den a) x)) ->
      forall multi (x : matrix), m_rows x = snd (shape a) -> (multi = false -> m_cols x = 1) -> 0 < m_cols x ->
        exists y, (if multi then checkMat (shape a) x (raw pinv multi a x) else checkVec (shape a) x (raw pinv multi a x)) = Ok y /\ meq y (mMul (den a) x)).
    { intros a W IH multi x R M N. destruct (IH multi x R M N) as (y & Ey & Hy). destruct (den_shape _ W) as (D1 & D2). destruct multi.
      - exists y. unfold checkMat. rewrite R, Nat.eqb_refl. auto.
      - rewrite Ey. pose proof Hy as (Hr & Hc & _). cbn in Hr, Hc. specialize (M eq_refl).
        rewrite checkVec_ok; try congruence. eexists. split; [reflexivity|]. apply meq_fix1; auto; congruence. }
    induction o; cbn [wf]; intros W multi x R M N; cbn [shape fst snd] in R; cbn [raw den].
    - rewrite npDot_ok by auto. eexists. split; [reflexivity | apply meq_refl].
    - rewrite npDot_ok by auto. eexists. split; [reflexivity | apply meq_refl].
    - rewrite npDot_ok by auto. eexists. split; [reflexivity | apply meq_refl].
    - destruct (HP a) as (P1 & P2 & _). destruct multi.
      + apply byColumns_ok; auto. cbn. intros v V1 V2. rewrite npDot_ok by congruence. eexists. split; [reflexivity | apply meq_refl].
      + rewrite npDot_ok by congruence. eexists. split; [reflexivity | apply meq_refl].
    - assert (Z : forall v : matrix, meq (zeroMat rows (m_cols v)) (mMul (zeroMat rows cols) v)).
      { intros v. split; [reflexivity|]. split; [reflexivity|]. intros i j _ _. cbn [mMul zeroMat m_at m_cols]. symmetry. apply bsum_zero. intros. ring. }
      destruct multi.
      + apply byColumns_ok; auto. cbn. intros v V1 V2. eexists. split; [reflexivity|]. rewrite <- V2. apply Z.
      + eexists. split; [reflexivity | apply Z].
    - destruct multi; [|now apply rank_one_apply]. apply byColumns_ok; auto. cbn. intros v V1 V2. apply rank_one_apply. auto.
    - destruct W as (W1 & W2 & S). destruct (den_shape _ W1) as (D1 & D2), (den_shape _ W2) as (D3 & D4).
      destruct (PART o1 W1 (IHo1 W1) multi x R M N) as (y & Ey & Hy).
      destruct (PART o2 W2 (IHo2 W2) multi x) as (z & Ez & Hz); auto; [congruence|].
      rewrite Ey, Ez. cbn [bind].
      pose proof Hy as (A1 & A2 & _). pose proof Hz as (B1 & B2 & _). cbn in A1, A2, B1, B2.
      destruct (@npAdd_same y z) as (w & Ew & Hw); [congruence|congruence|]. exists w. split; auto.
      eapply meq_trans; [exact Hw|]. eapply meq_trans; [eapply (@meq_add _ (y) _ (z)); [congruence|congruence|exact Hy|exact Hz]|].
      apply meq_sym, mMul_add_l. congruence.
    - destruct W as (W1 & W2 & S). destruct (den_shape _ W1) as (D1 & D2), (den_shape _ W2) as (D3 & D4).
      destruct (PART o2 W2 (IHo2 W2) multi x R M N) as (y & Ey & Hy). rewrite Ey. cbn [bind].
      pose proof Hy as (A1 & A2 & _). cbn in A1, A2.
      destruct (PART o1 W1 (IHo1 W1) multi y) as (z & Ez & Hz); [congruence | intros E; rewrite A2; auto | congruence |].
      exists z. split; auto. eapply meq_trans; [exact Hz|]. eapply meq_trans; [|apply meq_sym, mMul_assoc].
      apply meq_mul; [congruence | apply meq_refl | exact Hy].
    - destruct (PART o W (IHo W) multi x R M N) as (y & Ey & Hy). rewrite Ey. cbn [bind]. eexists. split; [reflexivity|].
      eapply meq_trans; [apply meq_scale; exact Hy|]. apply meq_sym, mMul_scale_l.
  Qed.
  Lemma wf_realises o m : wf o -> meq (den o) m -> realises pinv o m.
  Proof.
    intros W E. destruct (den_shape _ W) as (D1 & D2). pose proof E as (E1 & E2 & _).
    assert (S : shape o = (m_rows m, m_cols m)) by (rewrite (surjective_pairing (shape o)); congruence).
    assert (A : forall multi x, m_rows x = m_cols m -> (multi = false -> m_cols x = 1) -> 0 < m_cols x -> exists y, raw pinv multi o x = Ok y /\ meq y (mMul m x)).
    { intros multi x R M N. destruct (@raw_ok o W multi x) as (y & Ey & Hy); auto; [rewrite S; auto|]. exists y. split; auto.
      eapply meq_trans; [exact Hy|]. apply meq_mul; auto; [congruence | apply meq_refl]. }
    split; [exact S|]. split; [|split].
    - intros x R N. unfold dot. apply A; auto. intros H. apply negb_false_iff, Nat.eqb_eq in H. auto.
    - intros x R N. unfold matvec. destruct (A false x) as (y & Ey & Hy); auto; [lia|]. rewrite Ey.
      pose proof Hy as (A1 & A2 & _). cbn in A1, A2. rewrite checkVec_ok; rewrite ?S; auto; [|congruence].
      eexists. split; [reflexivity|]. apply meq_fix1; cbn; auto; congruence.
    - intros N. assert (G : exists a, dot pinv o (mId K (snd (shape o))) = Ok a /\ meq a m).
      { unfold dot. destruct (A (negb (m_cols (mId K (snd (shape o))) =? 1)) (mId K (snd (shape o)))) as (y & Ey & Hy).
        - cbn. rewrite S. reflexivity.
        - intros H. apply negb_false_iff, Nat.eqb_eq in H. auto.
        - cbn. rewrite S. exact N.
        - exists y. split; auto. eapply meq_trans; [exact Hy|]. rewrite S. apply mMul_id_r. }
      destruct o; auto; cbn in E; eexists; (split; [reflexivity | exact E]).
  Qed.

  (** ---- the operators that build new ones ---- *)
  (** predicates kept: no zero operator / real scalars / no sparse / real dense *)
  Fixpoint dEvery (Q : dop K -> Prop) (o : dop K) : Prop :=
    Q o /\ match o with Sum a b | Prod a b => dEvery Q a /\ dEvery Q b | Scaled a _ => dEvery Q a | _ => True end.
  Definition qZero (o : dop K) : Prop := match o with Zero _ _ => False | _ => True end.
  Definition qScal (o : dop K) : Prop := match o with Scaled _ c => conj c = c | _ => True end.
  Definition qSparse (o : dop K) : Prop := match o with Sparse _ => False | _ => True end.
  Definition qDense (o : dop K) : Prop := match o with Dense a => realMat a | _ => True end.

  Lemma pyAdd_ok a b : wf a -> wf b -> shape a = shape b ->
    exists o, pyAdd a b = Ok o /\ wf o /\ meq (den o) (mAdd (den a) (den b)) /\
      (dEvery qZero a -> dEvery qZero b -> dEvery qZero o) /\ (dEvery qScal a -> dEvery qScal b -> dEvery qScal o) /\
      (dEvery qSparse a -> dEvery qSparse b -> dEvery qSparse o) /\ (dEvery qDense a -> dEvery qDense b -> dEvery qDense o).
  Proof.
    intros Wa Wb S.
    assert (G : pyAdd a b = Ok (Sum a b) -> exists o, pyAdd a b = Ok o /\ wf o /\ meq (den o) (mAdd (den a) (den b)) /\
      (dEvery qZero a -> dEvery qZero b -> dEvery qZero o) /\ (dEvery qScal a -> dEvery qScal b -> dEvery qScal o) /\
      (dEvery qSparse a -> dEvery qSparse b -> dEvery qSparse o) /\ (dEvery qDense a -> dEvery qDense b -> dEvery qDense o)).
    { intros ->. exists (Sum a b). cbn. split; auto. split; auto. split; [apply meq_refl|]. auto 12. }
    assert (T : (fst (shape a) =? fst (shape b)) && (snd (shape a) =? snd (shape b)) = true) by (rewrite S, !Nat.eqb_refl; reflexivity).
    destruct a, b; try (apply G; unfold pyAdd; rewrite T; reflexivity).
    - cbn [shape] in S. injection S as S1 S2. destruct (@npAdd_same a a0 S1 S2) as (y & Ey & Hy). cbn [pyAdd]. rewrite Ey. cbn [bind].
      exists (Dense y). cbn. split; auto. split; auto. split; auto. split; [auto|]. split; [auto|]. split; [auto|].
      intros (A & _) (B & _). split; auto. destruct Hy as (Y1 & Y2 & Y3). cbn in Y1, Y2, Y3. intros i j Hi Hj.
      rewrite Y3 by auto. rewrite Y1 in Hi. rewrite Y2 in Hj. rewrite conj_add, A, B by congruence. reflexivity.
    - cbn [shape] in S. injection S as S1 S2. cbn [pyAdd]. unfold spAdd. rewrite S1, S2, !Nat.eqb_refl. cbn [andb bind].
      eexists. split; [reflexivity|]. cbn. split; auto. split; [apply meq_refl|]. intuition.
  Qed.
  Lemma bsum_real (l : list nat) f : (forall k, In k l -> conj (f k : K) = f k) -> conj (bsum l f) = bsum l f.
  Proof. intros H. rewrite bsum_conj. apply bsum_ext. exact H. Qed.
  Lemma pyMul_ok a b : wf a -> wf b -> snd (shape a) = fst (shape b) ->
    exists o, pyMul a b = Ok o /\ wf o /\ meq (den o) (mMul (den a) (den b)) /\
      (dEvery qZero a -> dEvery qZero b -> dEvery qZero o) /\ (dEvery qScal a -> dEvery qScal b -> dEvery qScal o) /\
      (dEvery qSparse a -> dEvery qSparse b -> dEvery qSparse o) /\ (dEvery qDense a -> dEvery qDense b -> dEvery qDense o).
  Proof.
    intros Wa Wb S.
    assert (G : pyMul a b = Ok (Prod a b) -> exists o, pyMul a b = Ok o /\ wf o /\ meq (den o) (mMul (den a) (den b)) /\
      (dEvery qZero a -> dEvery qZero b -> dEvery qZero o) /\ (dEvery qScal a -> dEvery qScal b -> dEvery qScal o) /\
      (dEvery qSparse a -> dEvery qSparse b -> dEvery qSparse o) /\ (dEvery qDense a -> dEvery qDense b -> dEvery qDense o)).
    { intros ->. exists (Prod a b). cbn. split; auto. split; auto. split; [apply meq_refl|]. auto 12. }
    assert (T : (snd (shape a) =? fst (shape b)) = true) by (rewrite S, !Nat.eqb_refl; reflexivity).
    destruct a, b; try (apply G; unfold pyMul; rewrite T; reflexivity).
    - cbn [shape fst snd] in S. cbn [pyMul]. rewrite npDot_ok by auto. cbn [bind]. eexists. split; [reflexivity|].
      cbn [wf den dEvery qZero qScal qSparse qDense]. split; auto. split; [apply meq_refl|]. split; [auto|]. split; [auto|]. split; [auto|].
      intros (A & _) (B & _). split; auto. intros i j Hi Hj. cbn [mMul m_at m_rows m_cols] in *. apply bsum_real.
      intros k Hk. apply in_seq in Hk. rewrite conj_mul, A, B by lia. reflexivity.
    - cbn [shape fst snd] in S. cbn [pyMul]. rewrite npDot_ok by auto. cbn [bind]. eexists. split; [reflexivity|].
      cbn [wf den dEvery qZero qScal qSparse qDense]. split; auto. split; [apply meq_refl|]. intuition.
  Qed.
  Lemma pyScale_ok a c : wf a -> wf (pyScale a c) /\ shape (pyScale a c) = shape a /\ meq (den (pyScale a c)) (mScale c (den a)) /\
    (dEvery qZero a -> dEvery qZero (pyScale a c)) /\ (conj c = c -> dEvery qScal a -> dEvery qScal (pyScale a c)) /\
    (dEvery qSparse a -> dEvery qSparse (pyScale a c)) /\ (conj c = c -> dEvery qDense a -> dEvery qDense (pyScale a c)).
  Proof.
    intros W. destruct a; cbn; (split; [auto|]); (split; [auto|]); (split; [apply meq_refl|]); intuition.
    intros i j Hi Hj. cbn in *. rewrite conj_mul, H, H1; auto.
  Qed.
  Lemma pyNeg_ok a : wf a -> wf (pyNeg a) /\ shape (pyNeg a) = shape a /\ meq (den (pyNeg a)) (mOpp (den a)) /\
    (dEvery qZero a -> dEvery qZero (pyNeg a)) /\ (dEvery qScal a -> dEvery qScal (pyNeg a)) /\
    (dEvery qSparse a -> dEvery qSparse (pyNeg a)) /\ (dEvery qDense a -> dEvery qDense (pyNeg a)).
  Proof.
    assert (C1 : conj (opp one : K) = opp one) by (rewrite conj_opp, conj_one; reflexivity).
    intros W. destruct a; cbn; (split; [auto|]); (split; [auto|]); (split; [first [apply meq_refl | apply mScale_opp]|]); intuition.
    intros i j Hi Hj. cbn in *. rewrite conj_opp, H0; auto.
  Qed.
  Lemma shape_of o m : wf o -> meq (den o) m -> shape o = (m_rows m, m_cols m).
  Proof. intros W (A & B & _). destruct (den_shape _ W) as (D1 & D2). rewrite (surjective_pairing (shape o)). congruence. Qed.
  Lemma rank_T (c r : list K) : meq (mMul (colVec r) (rowVec c)) (mT (mMul (colVec c) (rowVec r))).
  Proof. split; [reflexivity|]. split; [reflexivity|]. intros i j _ _. cbn. ring. Qed.
  Lemma rank_H (c r : list K) : meq (mMul (colVec (map (@conj K) r)) (rowVec (map (@conj K) c))) (mH (mMul (colVec c) (rowVec r))).
  Proof.
    split; [cbn; apply map_length|]. split; [cbn; apply map_length|]. intros i j _ _. cbn.
    rewrite <- (conj_zero K) at 1 2. rewrite !map_nth. rewrite conj_add, conj_mul, conj_zero. ring.
  Qed.

  Lemma transpose_ok o : wf o -> dEvery qZero o -> exists o', transpose o = Ok o' /\ wf o' /\ meq (den o') (mT (den o)) /\ dEvery qZero o' /\
    (dEvery qScal o -> dEvery qScal o') /\ (dEvery qSparse o -> dEvery qSparse o') /\ (dEvery qScal o -> dEvery qDense o -> dEvery qDense o').
  Proof.
    induction o; cbn [wf dEvery transpose]; intros W Z.
    - eexists. split; [reflexivity|]. cbn. split; auto. split; [apply meq_refl|]. intuition.
    - eexists. split; [reflexivity|]. cbn. split; auto. split; [apply meq_refl|]. intuition. intros i j Hi Hj. match goal with X : realMat _ |- _ => apply X; auto end.
    - eexists. split; [reflexivity|]. cbn. split; auto. split; [apply meq_refl|]. intuition.
    - eexists. split; [reflexivity|]. cbn. split; auto. split; [apply HP|]. intuition.
    - destruct Z as ([] & _).
    - eexists. split; [reflexivity|]. cbn. split; auto. split; [apply rank_T|]. intuition.
    - destruct W as (W1 & W2 & S), Z as (_ & Z1 & Z2). destruct (IHo1 W1 Z1) as (a & Ea & Wa & Da & Za & Ra & Pa & Qa), (IHo2 W2 Z2) as (b & Eb & Wb & Db & Zb & Rb & Pb & Qb).
      rewrite Ea, Eb. cbn [bind]. destruct (den_shape _ W1), (den_shape _ W2).
      destruct (@pyAdd_ok a b Wa Wb) as (o & Eo & Wo & Do & Zo & Ro & Po & Qo).
      { rewrite (shape_of _ Wa Da), (shape_of _ Wb Db). cbn. congruence. }
      exists o. split; auto. split; auto. split.
      { eapply meq_trans; [exact Do|]. eapply meq_trans; [eapply (@meq_add _ (den a) _ (den b)); [| |exact Da|exact Db]|].
        - destruct Da as (X & _), Db as (Y & _). cbn in X, Y. congruence.
        - destruct Da as (_ & X & _), Db as (_ & Y & _). cbn in X, Y. congruence.
        - apply meq_sym, mT_add; congruence. }
      split; [auto|]. split; [intros (_ & A & B); auto|]. split; [intros (_ & A & B); auto|]. intros (_ & A & B) (_ & C & D); auto.
    - destruct W as (W1 & W2 & S), Z as (_ & Z1 & Z2). destruct (IHo1 W1 Z1) as (a & Ea & Wa & Da & Za & Ra & Pa & Qa), (IHo2 W2 Z2) as (b & Eb & Wb & Db & Zb & Rb & Pb & Qb).
      rewrite Ea, Eb. cbn [bind]. destruct (den_shape _ W1), (den_shape _ W2).
      destruct (@pyMul_ok b a Wb Wa) as (o & Eo & Wo & Do & Zo & Ro & Po & Qo).
      { rewrite (shape_of _ Wa Da), (shape_of _ Wb Db). cbn. congruence. }
      exists o. split; auto. split; auto. split.
      { eapply meq_trans; [exact Do|]. eapply meq_trans; [eapply (@meq_mul _ (den b) _ (den a)); [|exact Db|exact Da]|].
        - destruct Da as (X & _), Db as (_ & Y & _). cbn in X, Y. congruence.
        - apply meq_sym, mT_mul; congruence. }
      split; [auto|]. split; [intros (_ & A & B); auto|]. split; [intros (_ & A & B); auto|]. intros (_ & A & B) (_ & C & D); auto.
    - destruct Z as (_ & Z). destruct (IHo W Z) as (a & Ea & Wa & Da & Za & Ra & Pa & Qa). rewrite Ea. cbn [bind]. eexists. split; [reflexivity|].
      destruct (@pyScale_ok a alpha Wa) as (A & B & C & D & E & F & G). split; auto. split; [eapply meq_trans; [exact C | apply (meq_scale alpha Da)]|].
      split; auto. cbn [qScal qDense qSparse]. split; [intros (X & Y); auto|]. split; [intros (X & Y); auto|]. intros (X & Y) (_ & X'); auto.
  Qed.
  Lemma adjoint_ok o : wf o -> dEvery qZero o -> dEvery qScal o -> exists o', adjoint o = Ok o' /\ wf o' /\ meq (den o') (mH (den o)) /\ dEvery qZero o' /\
    dEvery qScal o' /\ (dEvery qSparse o -> dEvery qSparse o') /\ (dEvery qDense o -> dEvery qDense o').
  Proof.
    induction o; cbn [wf dEvery adjoint]; intros W Z R.
    - eexists. split; [reflexivity|]. cbn. split; auto. split; [apply meq_refl|]. intuition.
    - eexists. split; [reflexivity|]. cbn. split; auto. split; [apply meq_refl|]. intuition. intros i j Hi Hj. cbn in *. match goal with X : realMat _ |- _ => rewrite X; auto end.
    - eexists. split; [reflexivity|]. cbn. split; auto. split; [apply meq_refl|]. intuition.
    - eexists. split; [reflexivity|]. cbn. split; auto. split; [apply HP|]. intuition.
    - destruct Z as ([] & _).
    - eexists. split; [reflexivity|]. cbn. split; auto. split; [apply rank_H|]. intuition.
    - destruct W as (W1 & W2 & S), Z as (_ & Z1 & Z2), R as (_ & R1 & R2).
      destruct (IHo1 W1 Z1 R1) as (a & Ea & Wa & Da & Za & Ra & Pa & Qa), (IHo2 W2 Z2 R2) as (b & Eb & Wb & Db & Zb & Rb & Pb & Qb).
      rewrite Ea, Eb. cbn [bind]. destruct (den_shape _ W1), (den_shape _ W2).
      destruct (@pyAdd_ok a b Wa Wb) as (o & Eo & Wo & Do & Zo & Ro & Po & Qo).
      { rewrite (shape_of _ Wa Da), (shape_of _ Wb Db). cbn. congruence. }
      exists o. split; auto. split; auto. split.
      { eapply meq_trans; [exact Do|]. eapply meq_trans; [eapply (@meq_add _ (den a) _ (den b)); [| |exact Da|exact Db]|].
        - destruct Da as (X & _), Db as (Y & _). cbn in X, Y. congruence.
        - destruct Da as (_ & X & _), Db as (_ & Y & _). cbn in X, Y. congruence.
        - apply meq_sym, mH_add. }
      split; [auto|]. split; [auto|]. split; intros (_ & A & B); auto.
    - destruct W as (W1 & W2 & S), Z as (_ & Z1 & Z2), R as (_ & R1 & R2).
      destruct (IHo1 W1 Z1 R1) as (a & Ea & Wa & Da & Za & Ra & Pa & Qa), (IHo2 W2 Z2 R2) as (b & Eb & Wb & Db & Zb & Rb & Pb & Qb).
      rewrite Ea, Eb. cbn [bind]. destruct (den_shape _ W1), (den_shape _ W2).
      destruct (@pyMul_ok b a Wb Wa) as (o & Eo & Wo & Do & Zo & Ro & Po & Qo).
      { rewrite (shape_of _ Wa Da), (shape_of _ Wb Db). cbn. congruence. }
      exists o. split; auto. split; auto. split.
      { eapply meq_trans; [exact Do|]. eapply meq_trans; [eapply (@meq_mul _ (den b) _ (den a)); [|exact Db|exact Da]|].
        - destruct Da as (X & _), Db as (_ & Y & _). cbn in X, Y. congruence.
        - apply meq_sym, mH_mul; congruence. }
      split; [auto|]. split; [auto|]. split; intros (_ & A & B); auto.
    - destruct Z as (_ & Z), R as (R0 & R). cbn in R0. destruct (IHo W Z R) as (a & Ea & Wa & Da & Za & Ra & Pa & Qa). rewrite Ea. cbn [bind]. eexists. split; [reflexivity|].
      destruct (@pyScale_ok a alpha Wa) as (A & B & C & D & E & F & G). split; auto. split.
      { eapply meq_trans; [exact C|]. eapply meq_trans; [apply (meq_scale alpha Da)|].
        split; [reflexivity|]. split; [reflexivity|]. intros i j _ _. cbn. rewrite conj_mul, R0. reflexivity. }
      split; auto. split; auto. split; intros (_ & X); auto.
  Qed.
  Lemma rraw_ok o : wf o -> dEvery qSparse o -> dEvery qScal o -> dEvery qDense o -> forall x, m_rows x = fst (shape o) -> m_cols x = 1 ->
    exists y, rraw pinv o x = Ok y /\ meq y (mMul (mH (den o)) x).
  Proof.
    assert (PART : forall a, wf a -> (forall x, m_rows x = fst (shape a) -> m_cols x = 1 -> exists y, rraw pinv a x = Ok y /\ meq y (mMul (mH (den a)) x)) ->
      forall x, m_rows x = fst (shape a) -> m_cols x = 1 -> exists y, checkVec (swap (shape a)) x (rraw pinv a x) = Ok y /\ meq y (mMul (mH (den a)) x)).
    { intros a W IH x R C. destruct (IH x R C) as (y & Ey & Hy). rewrite Ey. pose proof Hy as (A & B & _). cbn in A, B. destruct (den_shape _ W).
      rewrite checkVec_ok; auto; [|cbn; congruence|congruence]. eexists. split; [reflexivity|]. cbn. apply meq_fix1; auto; congruence. }
    induction o; cbn [wf dEvery rraw den]; intros W PS PR PD x R C; cbn [shape fst] in R.
    - rewrite npDot_ok by (cbn; auto). eexists. split; [reflexivity | apply meq_refl].
    - rewrite npDot_ok by (cbn; auto). eexists. split; [reflexivity|]. destruct PD as (PD & _). cbn in PD.
      apply meq_mul; [cbn; auto | | apply meq_refl]. split; [reflexivity|]. split; [reflexivity|]. cbn. intros i j Hi Hj. symmetry. apply PD; auto.
    - destruct PS as ([] & _).
    - destruct (HP a) as (P1 & P2 & P3 & P4). pose proof P4 as (Q1 & Q2 & _). cbn in Q1, Q2. rewrite npDot_ok by congruence.
      eexists. split; [reflexivity|]. apply meq_mul; [congruence | exact P4 | apply meq_refl].
    - eexists. split; [reflexivity|]. split; [reflexivity|]. split; [cbn; auto|]. intros i j _ _. cbn [mMul mH zeroMat m_at m_cols]. symmetry. apply bsum_zero.
      intros. rewrite conj_zero. ring.
    - assert (R' : m_rows x = length (map (@conj K) column)) by (rewrite map_length; auto).
      destruct (@rank_one_apply (map (@conj K) row) (map (@conj K) column) x R') as (y & Ey & Hy). exists y. split; auto. eapply meq_trans; [exact Hy|].
      apply meq_mul; [cbn; congruence | apply rank_H | apply meq_refl].
    - destruct W as (W1 & W2 & S), PS as (_ & S1 & S2), PR as (_ & R1 & R2), PD as (_ & D1 & D2). destruct (den_shape _ W1), (den_shape _ W2).
      destruct (PART o1 W1 (IHo1 W1 S1 R1 D1) x R C) as (y & Ey & Hy).
      destruct (PART o2 W2 (IHo2 W2 S2 R2 D2) x) as (z & Ez & Hz); auto; [congruence|].
      rewrite Ey, Ez. cbn [bind]. pose proof Hy as (A1 & A2 & _). pose proof Hz as (B1 & B2 & _). cbn in A1, A2, B1, B2.
      destruct (@npAdd_same y z) as (w & Ew & Hw); [congruence|congruence|]. exists w. split; auto.
      eapply meq_trans; [exact Hw|]. eapply meq_trans; [eapply (@meq_add _ y _ z); [congruence|congruence|exact Hy|exact Hz]|].
      eapply meq_trans; [apply meq_sym, mMul_add_l; cbn; congruence|].
      apply meq_mul; [cbn; congruence | apply meq_sym, mH_add | apply meq_refl].
    - destruct W as (W1 & W2 & S), PS as (_ & S1 & S2), PR as (_ & R1 & R2), PD as (_ & D1 & D2). destruct (den_shape _ W1), (den_shape _ W2).
      destruct (PART o1 W1 (IHo1 W1 S1 R1 D1) x R C) as (y & Ey & Hy). rewrite Ey. cbn [bind]. pose proof Hy as (A1 & A2 & _). cbn in A1, A2.
      destruct (PART o2 W2 (IHo2 W2 S2 R2 D2) y) as (z & Ez & Hz); [congruence|congruence|]. exists z. split; auto.
      eapply meq_trans; [exact Hz|].
      eapply meq_trans; [apply (@meq_mul _ (mH (den o2)) (mH (den o2)) y (mMul (mH (den o1)) x)); [cbn; congruence | apply meq_refl | exact Hy]|].
      eapply meq_trans; [apply meq_sym, mMul_assoc|]. apply meq_mul; [cbn; congruence | apply meq_sym, mH_mul; congruence | apply meq_refl].
    - destruct PS as (_ & S1), PR as (R0 & R1), PD as (_ & D1). cbn in R0. destruct (PART o W (IHo W S1 R1 D1) x R C) as (y & Ey & Hy).
      rewrite Ey. cbn [bind]. eexists. split; [reflexivity|]. eapply meq_trans; [apply meq_scale; exact Hy|].
      eapply meq_trans; [apply meq_sym, mMul_scale_l|]. destruct (den_shape _ W). apply meq_mul; [cbn; congruence | | apply meq_refl].
      split; [reflexivity|]. split; [reflexivity|]. intros i j _ _. cbn. rewrite conj_mul, R0. reflexivity.
  Qed.

  (** ---- expressions ---- *)
  Definition good (e : expr K) (o : dop K) : Prop :=
    (noZero e -> dEvery qZero o) /\ (realScalars e -> dEvery qScal o) /\ (noSparse e -> dEvery qSparse o) /\ (realScalars e -> realDense e -> dEvery qDense o).
  Lemma build_ok e : adjointable e -> forall m, value pinv e = Some m -> exists o, build e = Ok o /\ wf o /\ meq (den o) m /\ good e o.
  Proof.
    unfold good, adjointable, noZero, realScalars, noSparse, realDense.
    assert (OPP : forall a b : matrix, meq a b -> meq (mOpp a) (mOpp b)).
    { intros a b (X & Y & Z). split; [auto|]. split; [auto|]. cbn. intros. rewrite Z; auto. }
    assert (SZ : forall a b : matrix, sameSize a b = true -> m_rows a = m_rows b /\ m_cols a = m_cols b).
    { intros a b H. apply andb_true_iff in H as (H1 & H2). apply Nat.eqb_eq in H1, H2. auto. }
    induction e; cbn [every value build]; intros A m E.
    - injection E as <-. eexists. split; [reflexivity|]. cbn. split; auto. split; [apply meq_refl|]. intuition.
    - injection E as <-. eexists. split; [reflexivity|]. cbn. split; auto. split; [apply meq_refl|]. intuition.
    - injection E as <-. eexists. split; [reflexivity|]. cbn. split; auto. split; [apply meq_refl|]. intuition.
    - injection E as <-. eexists. split; [reflexivity|]. cbn. split; auto. split; [apply meq_refl|]. intuition.
    - injection E as <-. eexists. split; [reflexivity|]. cbn. split; auto. split; [apply meq_refl|]. intuition.
    - injection E as <-. eexists. split; [reflexivity|]. cbn. split; auto. split; [|intuition].
      split; [reflexivity|]. split; [reflexivity|]. intros i j _ _. cbn. ring.
    - destruct A as (_ & A1 & A2). destruct (value pinv e1) as [x|]; [|discriminate]. destruct (value pinv e2) as [y|]; [|discriminate].
      destruct (sameSize x y) eqn:S; [|discriminate]. injection E as <-. destruct (SZ _ _ S) as (S1 & S2).
      destruct (IHe1 A1 x eq_refl) as (a & Ea & Wa & Da & Ga), (IHe2 A2 y eq_refl) as (b & Eb & Wb & Db & Gb). rewrite Ea, Eb. cbn [bind].
      destruct (@pyAdd_ok a b Wa Wb) as (o & Eo & Wo & Do & Q). { rewrite (shape_of _ Wa Da), (shape_of _ Wb Db). congruence. }
      exists o. split; auto. split; auto. split; [|intuition].
      eapply meq_trans; [exact Do|]. pose proof Da as (X1 & X2 & _). pose proof Db as (Y1 & Y2 & _).
      apply meq_add; auto; congruence.
    - destruct A as (_ & A1 & A2). destruct (value pinv e1) as [x|]; [|discriminate]. destruct (value pinv e2) as [y|]; [|discriminate].
      destruct (sameSize x y) eqn:S; [|discriminate]. injection E as <-. destruct (SZ _ _ S) as (S1 & S2).
      destruct (IHe1 A1 x eq_refl) as (a & Ea & Wa & Da & Ga), (IHe2 A2 y eq_refl) as (b & Eb & Wb & Db & Gb). rewrite Ea, Eb. cbn [bind].
      destruct (@pyNeg_ok b Wb) as (Wn & Sn & Dn & Qn). unfold pySub.
      destruct (@pyAdd_ok a (pyNeg b) Wa Wn) as (o & Eo & Wo & Do & Q). { rewrite Sn, (shape_of _ Wa Da), (shape_of _ Wb Db). congruence. }
      exists o. split; auto. split; auto. split; [|intuition].
      assert (Dn' : meq (den (pyNeg b)) (mOpp y)) by (eapply meq_trans; [exact Dn | apply OPP; exact Db]).
      eapply meq_trans; [exact Do|]. pose proof Da as (X1 & X2 & _). pose proof Dn' as (Y1 & Y2 & _). cbn in Y1, Y2.
      apply meq_add; auto; congruence.
    - destruct A as (_ & A1 & A2). destruct (value pinv e1) as [x|]; [|discriminate]. destruct (value pinv e2) as [y|]; [|discriminate].
      destruct (m_cols x =? m_rows y) eqn:S; [|discriminate]. injection E as <-. apply Nat.eqb_eq in S.
      destruct (IHe1 A1 x eq_refl) as (a & Ea & Wa & Da & Ga), (IHe2 A2 y eq_refl) as (b & Eb & Wb & Db & Gb). rewrite Ea, Eb. cbn [bind].
      destruct (@pyMul_ok a b Wa Wb) as (o & Eo & Wo & Do & Q). { rewrite (shape_of _ Wa Da), (shape_of _ Wb Db). cbn. congruence. }
      exists o. split; auto. split; auto. split; [|intuition].
      eapply meq_trans; [exact Do|]. pose proof Da as (X1 & X2 & _). pose proof Db as (Y1 & Y2 & _).
      apply meq_mul; auto; congruence.
    - destruct A as (_ & A). destruct (value pinv e) as [x|]; [|discriminate]. injection E as <-.
      destruct (IHe A x eq_refl) as (a & Ea & Wa & Da & Ga). rewrite Ea. cbn [bind]. eexists. split; [reflexivity|].
      destruct (@pyScale_ok a c Wa) as (B1 & B2 & B3 & Q). split; auto. split; [eapply meq_trans; [exact B3 | apply (meq_scale c Da)]|]. intuition.
    - destruct A as (_ & A). destruct (value pinv e) as [x|]; [|discriminate]. injection E as <-.
      destruct (IHe A x eq_refl) as (a & Ea & Wa & Da & Ga). rewrite Ea. cbn [bind]. eexists. split; [reflexivity|].
      destruct (@pyNeg_ok a Wa) as (B1 & B2 & B3 & Q). split; auto. split; [eapply meq_trans; [exact B3 | apply OPP; exact Da]|]. intuition.
    - destruct A as (Z & A). destruct (value pinv e) as [x|]; [|discriminate]. injection E as <-.
      destruct (IHe A x eq_refl) as (a & Ea & Wa & Da & Ga). rewrite Ea. cbn [bind]. destruct Ga as (G1 & G2 & G3 & G4).
      destruct (@transpose_ok a Wa (G1 Z)) as (o & Eo & Wo & Do & Q). exists o. split; auto. split; auto.
      split; [eapply meq_trans; [exact Do | apply (meq_T Da)]|]. intuition.
    - destruct A as ((Z & R) & A). destruct (value pinv e) as [x|]; [|discriminate]. injection E as <-.
      destruct (IHe A x eq_refl) as (a & Ea & Wa & Da & Ga). rewrite Ea. cbn [bind]. destruct Ga as (G1 & G2 & G3 & G4).
      destruct (@adjoint_ok a Wa (G1 Z) (G2 R)) as (o & Eo & Wo & Do & Q). exists o. split; auto. split; auto.
      split; [eapply meq_trans; [exact Do | apply (meq_H Da)]|]. intuition.
  Qed.
End Proofs.
