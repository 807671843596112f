From Coq Require Import List Arith Bool Lia.
Import ListNotations.
From Verif Require Import Base ArrayModel AsmModel AsmProofs QuadModel MatAlg LocalCacheProofs PyOpModel PyOpSpec PyOpProofs PyBlockModel PyBlockSpec.
Set Implicit Arguments.

Lemma nth_error_combine A B (l : list A) (m : list B) k a b :
  nth_error (combine l m) k = Some (a, b) <-> nth_error l k = Some a /\ nth_error m k = Some b.
Proof.
  revert m k. induction l as [|x l IH]; intros [|y m] [|k]; cbn; try (split; [discriminate|intros (H1 & H2); discriminate]).
  - split; [intros H; injection H as -> ->; auto|intros (H1 & H2); congruence].
  - apply IH.
Qed.
Lemma nth_error_repeat A (a : A) n k : k < n -> nth_error (repeat a n) k = Some a.
Proof. revert k. induction n as [|n IH]; intros [|k] H; cbn; try lia; auto. apply IH. lia. Qed.
Lemma off_cons c C j : off (c :: C) (S j) = c + off C j.
Proof. reflexivity. Qed.
Lemma off_bound C j : j < length C -> off C j + nth j C 0 <= list_sum C.
Proof.
  revert j. induction C as [|c C IH]; intros [|j] H; cbn [length] in H; try lia; cbn [nth]; change (list_sum (c :: C)) with (c + list_sum C).
  - unfold off. cbn. lia.
  - rewrite off_cons. specialize (IH j). lia.
Qed.
Lemma locate C p : p < list_sum C -> exists j b, j < length C /\ b < nth j C 0 /\ p = off C j + b.
Proof.
  revert p. induction C as [|c C IH]; intros p H; [cbn in H; lia|]. change (list_sum (c :: C)) with (c + list_sum C) in H.
  destruct (lt_dec p c) as [L|L].
  - exists 0, p. cbn. repeat split; try lia. 
  - destruct (IH (p - c)) as (j & b & Hj & Hb & E); [lia|]. exists (S j), b. cbn [length nth]. rewrite off_cons. lia.
Qed.

Section Proofs.
  Variable K : star_ring.
  Add Ring Kring2 : (sr_ring K).
  Notation matrix := (mat K).
  Variable pinv : matrix -> matrix.
  Hypothesis HP : goodInverse pinv.

  Lemma map_add_seq c n s : map (fun k => c + k) (seq s n) = seq (c + s) n.
  Proof. revert s. induction n as [|n IH]; intros s; cbn; auto. f_equal. rewrite IH. f_equal. lia. Qed.
  Lemma bsum_blocks C (f : nat -> K) :
    bsum (seq 0 (list_sum C)) f = bsum (seq 0 (length C)) (fun j => bsum (seq 0 (nth j C 0)) (fun b => f (off C j + b))).
  Proof.
    revert f. induction C as [|c C IH]; intros f; [reflexivity|].
    change (list_sum (c :: C)) with (c + list_sum C). cbn [length]. rewrite seq_app, bsum_app. cbn [seq]. rewrite bsum_cons.
    f_equal.
    rewrite <- seq_shift, bsum_map. replace (0 + c) with (c + 0) by lia. rewrite <- map_add_seq, bsum_map, IH.
    apply bsum_ext. intros j _. cbn [nth]. apply bsum_ext. intros b _. rewrite off_cons. f_equal. lia.
  Qed.

  (** the dimensions found by the constructor *)
  Fixpoint setAll (l : list (option nat)) (es : list (nat * nat)) : res (list (option nat)) :=
    match es with [] => Ok l | (i, d) :: r => bind (setDim l i d) (fun l' => setAll l' r) end.
  Definition rowE (p : nat * nat * dop K) : nat * nat := (fst (fst p), fst (shape (snd p))).
  Definition colE (p : nat * nat * dop K) : nat * nat := (snd (fst p), snd (shape (snd p))).
  Lemma scan_setAll l : forall rows cols rows' cols',
    scan l rows cols = Ok (rows', cols') <-> setAll rows (map rowE l) = Ok rows' /\ setAll cols (map colE l) = Ok cols'.
  Proof.
    induction l as [|((i, j), o) l IH]; intros rows cols rows' cols'; cbn.
    - split; [intros H; injection H as -> ->; auto|intros (H1 & H2); congruence].
    - destruct (setDim rows i _) as [r1| |]; cbn; [|split; [discriminate|intros (H & _); discriminate]..].
      destruct (setDim cols j _) as [c1| |]; cbn; [apply IH|split; [discriminate|intros (_ & H); discriminate]..].
  Qed.
  Lemma setDim_spec l i d l' : setDim l i d = Ok l' ->
    length l' = length l /\ nth_error l' i = Some (Some d) /\ (forall k v, nth_error l k = Some (Some v) -> nth_error l' k = Some (Some v)) /\
    (forall k v, nth_error l' k = Some (Some v) -> nth_error l k = Some (Some v) \/ (k, v) = (i, d)).
  Proof.
    unfold setDim. destruct (nth_error l i) as [[e|]|] eqn:E; try discriminate.
    - destruct (d =? e) eqn:D; try discriminate. apply Nat.eqb_eq in D as <-. intros H. injection H as <-. auto.
    - destruct (upd l i (Some d)) as [l2|] eqn:U; try discriminate. intros H. injection H as <-.
      split; [eapply upd_length; eauto|]. split; [rewrite (upd_nth_error _ _ _ i U), Nat.eqb_refl; auto|]. split; intros k v Hk.
      + rewrite (upd_nth_error _ _ _ k U). destruct (k =? i) eqn:X; auto. apply Nat.eqb_eq in X. congruence.
      + rewrite (upd_nth_error _ _ _ k U) in Hk. destruct (k =? i) eqn:X; auto. apply Nat.eqb_eq in X. right. congruence.
  Qed.
  Lemma setAll_spec es : forall l l', setAll l es = Ok l' ->
    length l' = length l /\ (forall i d, In (i, d) es -> nth_error l' i = Some (Some d)) /\
    (forall k v, nth_error l k = Some (Some v) -> nth_error l' k = Some (Some v)) /\
    (forall k v, nth_error l' k = Some (Some v) -> nth_error l k = Some (Some v) \/ In (k, v) es).
  Proof.
    induction es as [|(i, d) es IH]; intros l l' H; cbn in H.
    - injection H as <-. split; auto. split; [intros ? ? []|]. auto.
    - destruct (setDim l i d) as [l1| |] eqn:E; try discriminate. destruct (setDim_spec _ _ _ E) as (A1 & A2 & A3 & A4).
      destruct (IH _ _ H) as (B1 & B2 & B3 & B4). split; [congruence|]. split; [|split].
      + intros i' d' [X|X]; auto. injection X as <- <-. auto.
      + auto.
      + intros k v Hk. destruct (B4 _ _ Hk) as [X|X]; cbn; auto. destruct (A4 _ _ X) as [Y|Y]; auto. 
  Qed.
  Lemma setAll_total R es : (forall i d, In (i, d) es -> nth_error R i = Some d) -> forall l, length l = length R ->
    (forall k v, nth_error l k = Some (Some v) -> nth_error R k = Some v) -> exists l', setAll l es = Ok l'.
  Proof.
    induction es as [|(i, d) es IH]; intros H l L C; cbn; [eauto|].
    pose proof (H i d (or_introl eq_refl)) as Hi.
    assert (exists l1, setDim l i d = Ok l1) as (l1 & E1).
    { unfold setDim. destruct (nth_error l i) as [[e|]|] eqn:E.
      - apply C in E. replace e with d by congruence. rewrite Nat.eqb_refl. eauto.
      - destruct (@upd_Some _ l i (Some d)) as (l1 & ->); eauto. apply nth_error_Some. congruence.
      - exfalso. apply nth_error_None in E. assert (i < length R) by (apply nth_error_Some; congruence). lia. }
    rewrite E1. cbn. destruct (setDim_spec _ _ _ E1) as (A1 & A2 & A3 & A4).
    apply IH; [intros; apply H; right; auto|congruence|]. intros k v Hk. destruct (A4 _ _ Hk) as [X|X]; auto. injection X as -> ->. auto.
  Qed.
  Lemma full_dims (R : list nat) (l : list (option nat)) : length l = length R -> (forall i, i < length R -> nth_error l i = Some (nth_error R i)) -> l = map Some R.
  Proof.
    revert l. induction R as [|r R IH]; intros [|x l] L H; try discriminate; auto. cbn. f_equal.
    - specialize (H 0). cbn in H. assert (Some x = Some (Some r)) by (apply H; lia). congruence.
    - apply IH; [cbn in L; lia|]. intros i Hi. apply (H (S i)). cbn. lia.
  Qed.
  Lemma allSet_map R : allSet (map Some R) = true. Proof. induction R; auto. Qed.
  Lemma dims_map R : dims (map Some R) = R. Proof. unfold dims. rewrite map_map. apply map_id. Qed.
  Lemma allSet_inv l : allSet l = true -> l = map Some (dims l).
  Proof. induction l as [|[x|] l IH]; cbn; intros H; auto; try discriminate. f_equal. apply IH. auto. Qed.
  Lemma in_present ops i j (o : dop K) : In (i, j, o) (present ops) <-> exists r, nth_error ops i = Some r /\ nth_error r j = Some (Some o).
  Proof.
    unfold present. rewrite in_flat_map. split.
    - intros ((i', r) & Hp & H). apply in_flat_map in H. destruct H as ((j', q) & Hq & H). cbn [fst snd] in *.
      apply (@in_enumerate _) in Hp. apply (@in_enumerate _) in Hq. destruct q as [o'|]; [|destruct H]. destruct H as [H|[]]. injection H as <- <- <-. eauto.
    - intros (r & Hr & Ho). exists (i, r). split; [apply (@in_enumerate _); auto|]. apply in_flat_map. exists (j, Some o).
      split; [apply (@in_enumerate _); auto|left; auto].
  Qed.

  (** the constructor *)
  Definition shapesFit (R C : list nat) (ops : list (list (option (dop K)))) : Prop :=
    forall i j r o, nth_error ops i = Some r -> nth_error r j = Some (Some o) -> nth_error R i = Some (fst (shape o)) /\ nth_error C j = Some (snd (shape o)).
  Definition covered (R C : list nat) (ops : list (list (option (dop K)))) : Prop :=
    (forall i, i < length R -> exists j r o, nth_error ops i = Some r /\ nth_error r j = Some (Some o)) /\
    (forall j, j < length C -> exists i r o, nth_error ops i = Some r /\ nth_error r j = Some (Some o)).
  Definition filledOps (R C : list nat) (ops : list (list (option (dop K)))) : list (list (dop K)) :=
    map (fun p => map (fun q => match snd q with Some o => o | None => Zero (fst p) (fst q) end) (combine C (snd p))) (combine R ops).
  Lemma mkBlocked_ok R C ops : R <> [] -> length ops = length R -> (forall r, In r ops -> length r = length C) ->
    shapesFit R C ops -> covered R C ops -> mkBlocked ops = Ok (Blocked R C (filledOps R C ops)).
  Proof.
    intros NE L LC F (CR & CC). unfold mkBlocked. destruct ops as [|r0 ops0] eqn:Eo; [destruct R; [congruence|discriminate]|]. rewrite <- Eo in *.
    assert (L0 : length r0 = length C) by (apply LC; rewrite Eo; left; auto). 
    assert (FB : forallb (fun r => length r =? length r0) ops = true).
    { apply forallb_forall. intros r Hr. apply Nat.eqb_eq. rewrite LC; auto. }
    rewrite FB. cbn [negb]. rewrite L, L0.
    assert (NR : forall n k v, nth_error (repeat (@None nat) n) k = Some (Some v) -> False).
    { intros n k v H. apply nth_error_In in H. apply repeat_spec in H. discriminate. }
    destruct (@setAll_total R (map rowE (present ops))) with (l := repeat (@None nat) (length R)) as (lr & Er).
    { intros i d H. apply in_map_iff in H. destruct H as (((i', j'), o) & E & H). apply in_present in H. destruct H as (r & H1 & H2).
      injection E as <- <-. apply (F i' j' r o H1 H2). }
    { apply repeat_length. } { intros k v H. destruct (NR _ _ _ H). }
    destruct (@setAll_total C (map colE (present ops))) with (l := repeat (@None nat) (length C)) as (lc & Ec).
    { intros i d H. apply in_map_iff in H. destruct H as (((i', j'), o) & E & H). apply in_present in H. destruct H as (r & H1 & H2).
      injection E as <- <-. apply (F i' j' r o H1 H2). }
    { apply repeat_length. } { intros k v H. destruct (NR _ _ _ H). }
    assert (S : scan (present ops) (repeat None (length R)) (repeat None (length C)) = Ok (lr, lc)) by (apply scan_setAll; auto).
    rewrite S. cbn [bind fst snd].
    destruct (setAll_spec _ _ Er) as (R1 & R2 & _ & _). destruct (setAll_spec _ _ Ec) as (C1 & C2 & _ & _). rewrite repeat_length in R1, C1.
    assert (lr = map Some R) as ->.
    { apply full_dims; auto. intros i Hi. destruct (CR i Hi) as (j & r & o & H1 & H2). destruct (F _ _ _ _ H1 H2) as (G1 & _). rewrite G1.
      apply R2. apply in_map_iff. exists (i, j, o). split; auto. apply in_present. eauto. }
    assert (lc = map Some C) as ->.
    { apply full_dims; auto. intros j Hj. destruct (CC j Hj) as (i & r & o & H1 & H2). destruct (F _ _ _ _ H1 H2) as (_ & G1). rewrite G1.
      apply C2. apply in_map_iff. exists (i, j, o). split; auto. apply in_present. eauto. }
    rewrite !allSet_map, !dims_map. reflexivity.
  Qed.
  Lemma mkBlocked_inv ops b : mkBlocked ops = Ok b ->
    ops <> [] /\ length ops = length (bl_rows b) /\ (forall r, In r ops -> length r = length (bl_cols b)) /\
    shapesFit (bl_rows b) (bl_cols b) ops /\ covered (bl_rows b) (bl_cols b) ops /\ bl_ops b = filledOps (bl_rows b) (bl_cols b) ops.
  Proof.
    intros H. unfold mkBlocked in H. destruct ops as [|r0 ops0] eqn:Eo; [discriminate|]. rewrite <- Eo in *.
    destruct (forallb _ ops) eqn:FB; [|discriminate]. cbn [negb] in H.
    destruct (scan _ _ _) as [(lr, lc)| |] eqn:S; try discriminate. cbn [bind fst snd] in H.
    destruct (allSet lr) eqn:AR; [|discriminate]. destruct (allSet lc) eqn:AC; [|discriminate]. cbn [andb] in H. injection H as <-.
    cbn [bl_rows bl_cols bl_ops]. apply scan_setAll in S. destruct S as (Er & Ec).
    destruct (setAll_spec _ _ Er) as (R1 & R2 & _ & R4). destruct (setAll_spec _ _ Ec) as (C1 & C2 & _ & C4). rewrite repeat_length in R1, C1.
    assert (NR : forall n k v, nth_error (repeat (@None nat) n) k = Some (Some v) -> False).
    { intros n k v H. apply nth_error_In in H. apply repeat_spec in H. discriminate. }
    apply allSet_inv in AR. apply allSet_inv in AC. set (R := dims lr) in *. set (C := dims lc) in *.
    assert (NTH : forall (l : list nat) i d, nth_error (map Some l) i = Some (Some d) -> nth_error l i = Some d).
    { intros l i d H. rewrite nth_error_map in H. destruct (nth_error l i); cbn in H; congruence. }
    split; [rewrite Eo; discriminate|]. split; [rewrite AR, map_length in R1; auto|].
    split. { intros r Hr. rewrite forallb_forall in FB. apply FB, Nat.eqb_eq in Hr. rewrite AC, map_length in C1. congruence. }
    split.
    { intros i j r o H1 H2. assert (P : In (i, j, o) (present ops)) by (apply in_present; eauto). split.
      - apply NTH. rewrite <- AR. apply R2. apply in_map_iff. exists (i, j, o). auto.
      - apply NTH. rewrite <- AC. apply C2. apply in_map_iff. exists (i, j, o). auto. }
    split; [|reflexivity]. split.
    - intros i Hi. destruct (nth_error R i) as [d|] eqn:E; [|apply nth_error_None in E; lia].
      destruct (R4 i d) as [X|X]; [rewrite AR, nth_error_map, E; auto|destruct (NR _ _ _ X)|].
      apply in_map_iff in X. destruct X as (((i', j), o) & Y & X). apply in_present in X. destruct X as (r & X1 & X2). injection Y as -> _. eauto.
    - intros j Hj. destruct (nth_error C j) as [d|] eqn:E; [|apply nth_error_None in E; lia].
      destruct (C4 j d) as [X|X]; [rewrite AC, nth_error_map, E; auto|destruct (NR _ _ _ X)|].
      apply in_map_iff in X. destruct X as (((i, j'), o) & Y & X). apply in_present in X. destruct X as (r & X1 & X2). injection Y as -> _. eauto.
  Qed.

  (** products *)
  Lemma rowApply_ok r (x : matrix) : 0 < m_cols x -> forall cols ops start acc,
    length ops = length cols -> (forall j o, nth_error ops j = Some o -> wf o /\ shape o = (r, nth j cols 0)) ->
    start + list_sum cols <= m_rows x -> m_rows acc = r -> m_cols acc = m_cols x ->
    exists y, rowApply pinv ops cols start x acc = Ok y /\ m_rows y = r /\ m_cols y = m_cols x /\
      forall a q, a < r -> q < m_cols x -> m_at y a q = add (m_at acc a q)
        (bsum (seq 0 (length cols)) (fun j => bsum (seq 0 (nth j cols 0)) (fun b => mul (m_at (den pinv (nth j ops (Zero 0 0))) a b) (m_at x (start + off cols j + b) q)))).
  Proof.
    intros NC. induction cols as [|c cols IH]; intros [|o ops] start acc L W B R C; try discriminate.
    - exists acc. cbn. repeat split; auto. intros. ring.
    - cbn [rowApply]. destruct (W 0 o eq_refl) as (Wo & So). cbn [nth] in So. change (list_sum (c :: cols)) with (c + list_sum cols) in B.
      assert (SR : m_rows (rowSlice x start c) = c) by (cbn; lia).
      destruct (den_shape HP _ Wo) as (D1 & D2). rewrite So in D1, D2. cbn in D1, D2.
      destruct (@wf_realises _ _ HP _ _ Wo (meq_refl _)) as (_ & DOT & _).
      destruct (DOT (rowSlice x start c)) as (y & Ey & (Y1 & Y2 & Y3)); [congruence|exact NC|].
      rewrite Ey. cbn [bind]. cbn [m_rows m_cols mMul] in Y1, Y2. rewrite D1 in Y1. cbn [rowSlice m_cols] in Y2.
      unfold iadd at 1. rewrite Y1, Y2, R, C, !Nat.eqb_refl. cbn [orb andb bind].
      destruct (IH ops (start + c) (Mat r (m_cols x) (fun i j => add (m_at acc i j) (m_at y (bidx r i) (bidx (m_cols x) j))))) as (z & Ez & Z1 & Z2 & Z3).
      { cbn in L. lia. } { intros j o' H. apply (W (S j) o' H). } { lia. } { reflexivity. } { reflexivity. }
      exists z. split; [exact Ez|]. split; auto. split; auto. intros a q Ha Hq. rewrite Z3 by auto. cbn [m_at length seq]. rewrite bsum_cons.
      rewrite <- seq_shift, bsum_map.
      assert (EY : m_at y (bidx r a) (bidx (m_cols x) q) = bsum (seq 0 (nth 0 (c :: cols) 0)) (fun b => mul (m_at (den pinv (nth 0 (o :: ops) (Zero 0 0))) a b) (m_at x (start + off (c :: cols) 0 + b) q))).
      { replace (bidx r a) with a by (unfold bidx; destruct (r =? 1) eqn:X; auto; apply Nat.eqb_eq in X; lia).
        replace (bidx (m_cols x) q) with q by (unfold bidx; destruct (m_cols x =? 1) eqn:X; auto; apply Nat.eqb_eq in X; lia).
        rewrite Y3 by congruence. cbn [mMul m_at nth rowSlice]. rewrite D2. apply bsum_ext. intros b _. unfold off. cbn. f_equal. f_equal. lia. }
      rewrite EY.
      assert (ES : bsum (seq 0 (length cols)) (fun j => bsum (seq 0 (nth j cols 0)) (fun b => mul (m_at (den pinv (nth j ops (Zero 0 0))) a b) (m_at x (start + c + off cols j + b) q))) =
        bsum (seq 0 (length cols)) (fun j => bsum (seq 0 (nth (S j) (c :: cols) 0)) (fun b => mul (m_at (den pinv (nth (S j) (o :: ops) (Zero 0 0))) a b) (m_at x (start + off (c :: cols) (S j) + b) q)))).
      { apply bsum_ext. intros j _. apply bsum_ext. intros b _. rewrite off_cons. cbn [nth]. f_equal. f_equal. lia. }
      rewrite ES. ring.
  Qed.
  Lemma stackAt_ok (l : list matrix) q : forall R, map (@m_rows K) l = R -> forall i a, i < length R -> a < nth i R 0 ->
    stackAt l (off R i + a) q = m_at (nth i l (zeroMat 0 0)) a q.
  Proof.
    induction l as [|m l IH]; intros R E i a Hi Ha; subst R; cbn [map length] in *; [lia|].
    destruct i as [|i].
    - unfold off. cbn [firstn list_sum fold_right plus stackAt nth] in *. apply Nat.ltb_lt in Ha. rewrite Ha. reflexivity.
    - rewrite off_cons. cbn [stackAt nth] in *. replace (_ <? _) with false by (symmetry; apply Nat.ltb_ge; lia).
      replace (m_rows m + off (map (m_rows (K:=K)) l) i + a - m_rows m) with (off (map (m_rows (K:=K)) l) i + a) by lia. apply IH; auto. lia.
  Qed.

  (** invariant of operators that realise a block matrix *)
  Definition binv (o : bop K) (R C : list nat) (m : matrix) : Prop :=
    rowDims o = R /\ colDims o = C /\ ndimsCols o = length C /\ bshape o = (list_sum R, list_sum C) /\
    m_rows m = list_sum R /\ m_cols m = list_sum C /\
    (forall oned x, m_rows x = list_sum C -> 0 < m_cols x -> (oned = true -> m_cols x = 1) ->
       exists y, bapply pinv oned o x = Ok y /\ meq y (mMul m x)) /\
    (forall i j, i < length R -> j < length C -> exists d, bget o i j = Ok d /\ wf d /\ meq (den pinv d) (blockOf R C i j m)).

  Lemma wf_shape (d : dop K) m : wf d -> meq (den pinv d) m -> shape d = (m_rows m, m_cols m).
  Proof. apply shape_of. exact HP. Qed.
  Lemma blk_ok (b : blocked K) R C m : bl_rows b = R -> bl_cols b = C -> length (bl_ops b) = length R ->
    (forall r, In r (bl_ops b) -> length r = length C) -> m_rows m = list_sum R -> m_cols m = list_sum C ->
    (forall i j, i < length R -> j < length C -> exists d, bget (BLeaf b) i j = Ok d /\ wf d /\ meq (den pinv d) (blockOf R C i j m)) ->
    binv (BLeaf b) R C m.
  Proof.
    intros ER EC LR LC MR MC G. 
    assert (AP : forall x, m_rows x = list_sum C -> 0 < m_cols x -> exists y, blkApply pinv b x = Ok y /\ meq y (mMul m x)).
    { intros x XR XC. unfold blkApply. rewrite ER, EC.
      assert (GOOD : forall i r ops, nth_error R i = Some r -> nth_error (bl_ops b) i = Some ops ->
        exists y, rowApply pinv ops C 0 x (zeroMat r (m_cols x)) = Ok y /\ m_rows y = r /\ m_cols y = m_cols x /\
          forall a q, a < r -> q < m_cols x -> m_at y a q = m_at (mMul m x) (off R i + a) q).
      { intros i r ops Hr Ho. assert (Hi : i < length R) by (apply nth_error_Some; congruence).
        assert (Lo : length ops = length C) by (apply LC; eapply nth_error_In; eauto).
        assert (NR : nth i R 0 = r) by (apply nth_error_nth; auto).
        assert (GJ : forall j o, nth_error ops j = Some o -> wf o /\ meq (den pinv o) (blockOf R C i j m)).
        { intros j o Hj. assert (j < length C) by (rewrite <- Lo; apply nth_error_Some; congruence).
          destruct (G i j Hi H) as (d & Ed & Wd & Md). cbn in Ed. rewrite Ho, Hj in Ed. injection Ed as ->. auto. }
        destruct (@rowApply_ok r x XC C ops 0 (zeroMat r (m_cols x))) as (y & Ey & Y1 & Y2 & Y3); auto.
        { intros j o Hj. destruct (GJ j o Hj) as (W & M). split; auto. rewrite (@wf_shape _ _ W M). cbn. congruence. }
        { lia. }
        exists y. split; auto. split; auto. split; auto. intros a q Ha Hq. rewrite Y3 by auto. cbn [zeroMat m_at mMul].
        rewrite MC, bsum_blocks.
        rewrite (bsum_ext _ _ (fun j => bsum (seq 0 (nth j C 0)) (fun b0 => mul (m_at m (off R i + a) (off C j + b0)) (m_at x (off C j + b0) q)))).
        - ring.
        - intros j Hj. apply in_seq in Hj. apply bsum_ext. intros b0 Hb. apply in_seq in Hb. cbn [plus]. f_equal.
          assert (exists o, nth_error ops j = Some o) as (o & Eo). { destruct (nth_error ops j) eqn:E; eauto. apply nth_error_None in E. lia. }
          rewrite (nth_error_nth _ _ _ Eo). destruct (GJ j o Eo) as (W & (M1 & M2 & M3)). rewrite M3; auto; rewrite ?M1, ?M2; cbn; lia. }
      destruct (mapRes_nth (fun ro => rowApply pinv (snd ro) C 0 x (zeroMat (fst ro) (m_cols x))) (combine R (bl_ops b))) as (l & El & Ll & Nl).
      { intros (r, ops) H. apply In_nth_error in H. destruct H as (k & H). apply nth_error_combine in H. destruct H as (H1 & H2).
        destruct (GOOD k r ops H1 H2) as (y & Ey & _). eauto. }
      rewrite El. cbn [bind]. eexists. split; [reflexivity|].
      rewrite combine_length, LR, Nat.min_id in Ll.
      assert (ROW : forall i, i < length R -> exists y, nth_error l i = Some y /\ m_rows y = nth i R 0 /\
         forall a q, a < nth i R 0 -> q < m_cols x -> m_at y a q = m_at (mMul m x) (off R i + a) q).
      { intros i Hi. destruct (nth_error R i) as [r|] eqn:Er; [|apply nth_error_None in Er; lia].
        destruct (nth_error (bl_ops b) i) as [ops|] eqn:Eo; [|apply nth_error_None in Eo; lia].
        destruct (Nl i (r, ops)) as (y & Hy & Ey); [apply nth_error_combine; auto|]. cbn [fst snd] in Ey.
        destruct (GOOD i r ops Er Eo) as (y' & Ey' & Y1 & _ & Y3). assert (y' = y) as -> by congruence.
        exists y. rewrite (nth_error_nth _ _ _ Er). auto. }
      assert (MAP : map (@m_rows K) l = R).
      { apply nth_ext with (d := 0) (d' := 0); [rewrite map_length; auto|]. intros i Hi. rewrite map_length in Hi. destruct (ROW i) as (y & Hy & Y1 & _); [lia|].
        rewrite <- Y1. rewrite nth_indep with (d' := m_rows (zeroMat 0 0 : matrix)) by (rewrite map_length; lia). rewrite map_nth. f_equal. apply nth_error_nth. auto. }
      split; [cbn; congruence|]. split; [reflexivity|]. cbn [m_rows m_cols m_at]. intros p q Hp Hq.
      destruct (locate _ Hp) as (i & a & Hi & Ha & ->). rewrite (@stackAt_ok l q R MAP i a Hi Ha). destruct (ROW i Hi) as (y & Hy & Y1 & Y3).
      rewrite (nth_error_nth _ _ _ Hy). apply Y3; auto. }
    split; [exact ER|]. split; [exact EC|]. split; [cbn; congruence|]. split; [cbn; congruence|]. split; auto. split; auto. split; [|exact G].
    intros oned x XR XC ON. cbn [bapply]. destruct (AP x XR XC) as (y & Ey & Hy). rewrite Ey. destruct oned; [|eauto].
    pose proof Hy as (Y1 & Y2 & _). cbn in Y1, Y2. rewrite checkVec_ok; cbn; rewrite ?ON in *; auto; try congruence.
    eexists. split; [reflexivity|]. apply meq_fix1; auto; congruence.
  Qed.
  Lemma npDiffer_same (l : list nat) : npDiffer l l = false.
  Proof.
    unfold npDiffer. rewrite Nat.eqb_refl. apply Bool.negb_false_iff. apply forallb_forall. intros (a, b) H.
    apply In_nth_error in H. destruct H as (k & H). apply nth_error_combine in H. cbn. apply Nat.eqb_eq. destruct H. congruence.
  Qed.
  Lemma off_lt C j b : j < length C -> b < nth j C 0 -> off C j + b < list_sum C.
  Proof. intros H1 H2. pose proof (@off_bound C j H1). lia. Qed.
  Lemma blockOf_add R C i j (m n : matrix) : meq (mAdd (blockOf R C i j m) (blockOf R C i j n)) (blockOf R C i j (mAdd m n)).
  Proof. split; [reflexivity|]. split; reflexivity. Qed.
  Lemma blockOf_scale R C i j c (m : matrix) : meq (mScale c (blockOf R C i j m)) (blockOf R C i j (mScale c m)).
  Proof. split; [reflexivity|]. split; reflexivity. Qed.
  Lemma sum_inv a b R C m n : binv a R C m -> binv b R C n -> exists o, bAdd a b = Ok o /\ binv o R C (mAdd m n).
  Proof.
    intros (A1 & A2 & A3 & A4 & A5 & A6 & A7 & A8) (B1 & B2 & B3 & B4 & B5 & B6 & B7 & B8). unfold bAdd. rewrite A1, A2, B1, B2, !npDiffer_same. cbn [orb].
    exists (BSum a b). split; auto. split; [exact A1|]. split; [exact A2|]. split; [exact A3|]. split; [exact A4|]. split; [exact A5|]. split; [exact A6|]. split.
    - intros oned x XR XC ON. cbn [bapply]. destruct (A7 oned x XR XC ON) as (y & Ey & Hy). destruct (B7 oned x XR XC ON) as (z & Ez & Hz).
      rewrite Ey, Ez. cbn [bind]. pose proof Hy as (Y1 & Y2 & _). pose proof Hz as (Z1 & Z2 & _). cbn in Y1, Y2, Z1, Z2.
      destruct (@npAdd_same K y z) as (w & Ew & Hw); [congruence..|]. exists w. split; auto.
      eapply meq_trans; [exact Hw|]. eapply meq_trans; [apply meq_add; [congruence|congruence|exact Hy|exact Hz]|]. apply meq_sym, mMul_add_l; congruence.
    - intros i j Hi Hj. cbn [bget]. destruct (A8 i j Hi Hj) as (d & Ed & Wd & Md). destruct (B8 i j Hi Hj) as (e & Ee & We & Me). rewrite Ed, Ee. cbn [bind].
      pose proof (@wf_shape _ _ Wd Md) as Sd. pose proof (@wf_shape _ _ We Me) as Se. cbn in Sd, Se.
      destruct (@pyAdd_ok K pinv d e) as (o & Eo & Wo & Mo & _); auto; [congruence|]. exists o. split; auto. split; auto.
      eapply meq_trans; [exact Mo|]. destruct (den_shape HP _ Wd), (den_shape HP _ We).
      eapply meq_trans; [apply meq_add; [congruence|congruence|exact Md|exact Me]|apply blockOf_add].
  Qed.
  Lemma scale_inv a R C m c : binv a R C m -> binv (bScale a c) R C (mScale c m).
  Proof.
    intros (A1 & A2 & A3 & A4 & A5 & A6 & A7 & A8). split; [exact A1|]. split; [exact A2|]. split; [exact A3|]. split; [exact A4|]. split; [exact A5|]. split; [exact A6|]. split.
    - intros oned x XR XC ON. cbn [bapply bScale]. destruct (A7 oned x XR XC ON) as (y & Ey & Hy). rewrite Ey. cbn [bind]. eexists. split; [reflexivity|].
      eapply meq_trans; [apply meq_scale; exact Hy|]. apply meq_sym, mMul_scale_l.
    - intros i j Hi Hj. cbn [bget bScale]. destruct (A8 i j Hi Hj) as (d & Ed & Wd & Md). rewrite Ed. cbn [bind]. eexists. split; [reflexivity|].
      destruct (@pyScale_ok K pinv d c Wd) as (W & _ & M & _). split; auto. eapply meq_trans; [exact M|]. eapply meq_trans; [apply meq_scale; exact Md|apply blockOf_scale].
  Qed.
  Lemma meq_binv o R C m n : meq m n -> binv o R C m -> binv o R C n.
  Proof.
    intros E (A1 & A2 & A3 & A4 & A5 & A6 & A7 & A8). pose proof E as (E1 & E2 & E3). repeat (split; [congruence|]). split.
    - intros oned x XR XC ON. destruct (A7 oned x XR XC ON) as (y & Ey & Hy). exists y. split; auto. eapply meq_trans; [exact Hy|].
      apply meq_mul; [congruence|exact E|apply meq_refl].
    - intros i j Hi Hj. destruct (A8 i j Hi Hj) as (d & Ed & Wd & Md). exists d. split; auto. split; auto. eapply meq_trans; [exact Md|].
      split; [reflexivity|]. split; [reflexivity|]. cbn. intros a b Ha Hb. apply E3; [rewrite A5|rewrite A6]; apply off_lt; auto.
  Qed.
  Lemma neg_inv a R C m : binv a R C m -> binv (bNeg a) R C (mOpp m).
  Proof. intros H. eapply meq_binv; [apply mScale_opp|]. apply scale_inv. exact H. Qed.
  Lemma prod_inv a b R D C m n : binv a R D m -> binv b D C n -> exists o, bMul a b = Ok o /\ binv o R C (mMul m n).
  Proof.
    intros (A1 & A2 & A3 & A4 & A5 & A6 & A7 & A8) (B1 & B2 & B3 & B4 & B5 & B6 & B7 & B8). unfold bMul. rewrite A2, B1, npDiffer_same.
    exists (BProd a b). split; auto. split; [exact A1|]. split; [exact B2|]. split; [exact B3|]. split; [cbn; rewrite A4, B4; auto|]. split; [exact A5|]. split; [exact B6|]. split.
    - intros oned x XR XC ON. cbn [bapply]. destruct (B7 oned x XR XC ON) as (y & Ey & Hy). rewrite Ey. cbn [bind]. pose proof Hy as (Y1 & Y2 & _). cbn in Y1, Y2.
      destruct (A7 oned y) as (z & Ez & Hz); [congruence|congruence|intros X; rewrite Y2; auto|]. exists z. split; auto. eapply meq_trans; [exact Hz|].
      eapply meq_trans; [apply meq_mul; [congruence|apply meq_refl|exact Hy]|]. apply meq_sym, mMul_assoc.
    - intros i j Hi Hj. cbn [bget]. rewrite A1, B2, A3.
      destruct (nth_error R i) as [r|] eqn:Er; [|apply nth_error_None in Er; lia]. destruct (nth_error C j) as [c|] eqn:Ec; [|apply nth_error_None in Ec; lia].
      pose proof (nth_error_nth _ _ 0 Er) as NR. pose proof (nth_error_nth _ _ 0 Ec) as NC.
      set (f := fun acc k => bind acc (fun s => bind (bget a i k) (fun x => bind (bget b k j) (fun y => bind (pyMul x y) (fun xy => pyAdd s xy))))).
      assert (G : forall ks, (forall k, In k ks -> k < length D) -> forall s, wf s -> shape s = (r, c) ->
        exists d, fold_left f ks (Ok s) = Ok d /\ wf d /\ shape d = (r, c) /\
          forall p q, p < r -> q < c -> m_at (den pinv d) p q = add (m_at (den pinv s) p q)
             (bsum ks (fun k => bsum (seq 0 (nth k D 0)) (fun t => mul (m_at m (off R i + p) (off D k + t)) (m_at n (off D k + t) (off C j + q)))))).
      { induction ks as [|k ks IH]; intros Hk s Ws Ss.
        - exists s. cbn. split; auto. split; auto. split; auto. intros. ring.
        - assert (Hk1 : k < length D) by (apply Hk; left; auto). cbn [fold_left]. unfold f at 2. cbn [bind].
          destruct (A8 i k Hi Hk1) as (x & Ex & Wx & Mx). destruct (B8 k j Hk1 Hj) as (y & Ey & Wy & My). rewrite Ex, Ey. cbn [bind].
          pose proof (@wf_shape _ _ Wx Mx) as Sx. pose proof (@wf_shape _ _ Wy My) as Sy. cbn in Sx, Sy.
          destruct (@pyMul_ok K pinv x y) as (xy & Exy & Wxy & Mxy & _); auto; [rewrite Sx, Sy; auto|]. rewrite Exy. cbn [bind].
          assert (Sxy : shape xy = (r, c)).
          { rewrite (@wf_shape _ _ Wxy Mxy). cbn. destruct (den_shape HP _ Wx), (den_shape HP _ Wy). rewrite H, H2, Sx, Sy, NR, NC. auto. }
          destruct (@pyAdd_ok K pinv s xy) as (s' & Es' & Ws' & Ms' & _); auto; [congruence|]. rewrite Es'.
          destruct (den_shape HP _ Ws) as (S1 & S2). rewrite Ss in S1, S2. cbn in S1, S2.
          assert (Ss' : shape s' = (r, c)) by (rewrite (@wf_shape _ _ Ws' Ms'); cbn; congruence).
          destruct (IH (fun k' H => Hk k' (or_intror H)) s' Ws' Ss') as (d & Ed & Wd & Sd & Md). exists d. split; auto. split; auto. split; auto.
          intros p q Hp Hq. rewrite Md by auto. rewrite bsum_cons. destruct Ms' as (M1 & M2 & M3). cbn in M1, M2. rewrite M3 by congruence. cbn [mAdd m_at].
          destruct Mxy as (N1 & N2 & N3). cbn in N1, N2. destruct (den_shape HP _ Wxy) as (X1 & X2). rewrite Sxy in X1, X2. cbn in X1, X2.
          rewrite N3 by congruence. cbn [mMul m_at]. destruct Mx as (P1 & P2 & P3). destruct My as (Q1 & Q2 & Q3). cbn in P1, P2, Q1, Q2. rewrite P2.
          rewrite (bsum_ext (seq 0 (nth k D 0)) _ (fun t => mul (m_at m (off R i + p) (off D k + t)) (m_at n (off D k + t) (off C j + q)))).
          + ring.
          + intros t Ht. apply in_seq in Ht. rewrite P3, Q3 by lia. reflexivity. }
      destruct (G (seq 0 (length D))) with (s := @Zero K r c) as (d & Ed & Wd & Sd & Md); [intros k Hk; apply in_seq in Hk; lia|exact I|reflexivity|].
      exists d. split; auto. split; auto. destruct (den_shape HP _ Wd) as (D1 & D2). rewrite Sd in D1, D2. cbn in D1, D2.
      split; [cbn; congruence|]. split; [cbn; congruence|]. rewrite D1, D2. intros p q Hp Hq. rewrite Md by auto. cbn [den zeroMat m_at blockOf mMul].
      rewrite A6, bsum_blocks. ring.
  Qed.
  Lemma binv_realises o R C m : binv o R C m -> brealises pinv o R C m.
  Proof.
    intros (A1 & A2 & A3 & A4 & A5 & A6 & A7 & A8). split; auto. split; auto. split; auto. split; [exact A7|]. split; [|split].
    - intros oned x XR XC. destruct (A7 oned x XR) as (y & Ey & Hy); [lia|auto|]. unfold bmatvec. rewrite Ey, A4.
      pose proof Hy as (Y1 & Y2 & _). cbn in Y1, Y2. rewrite checkVec_ok; cbn; try congruence. eexists. split; [reflexivity|]. apply meq_fix1; auto; congruence.
    - intros N. unfold bAsMatrix. rewrite A4. cbn [snd]. destruct (A7 false (mId K (list_sum C))) as (y & Ey & Hy); [reflexivity|exact N|discriminate|].
      exists y. split; auto. eapply meq_trans; [exact Hy|]. rewrite <- A6. apply mMul_id_r.
    - intros i j Hi Hj. destruct (A8 i j Hi Hj) as (d & Ed & Wd & Md). exists d. split; auto. apply wf_realises; auto.
  Qed.
  Lemma leaf_ok blocks R C M m :
      length blocks = length R -> (forall r, In r blocks -> length r = length C) ->
      (forall i, i < length R -> exists j e, entry blocks i j = Some e) ->
      (forall j, j < length C -> exists i e, entry blocks i j = Some e) ->
      (forall i j, i < length R -> j < length C ->
         blockValue pinv R C blocks i j = Some (M i j) /\ m_rows (M i j) = nth i R 0 /\ m_cols (M i j) = nth j C 0) ->
      (forall i j e, entry blocks i j = Some e -> adjointable e) ->
      R <> [] -> isBlockMatrix R C M m -> exists o, bbuild (XBlocks blocks) = Ok o /\ binv o R C m.
  Proof.
    intros LB LC HR HC HV HA NE (MR & MC & MB).
    assert (EN : forall i j e, entry blocks i j = Some e <-> exists r, nth_error blocks i = Some r /\ nth_error r j = Some (Some e)).
    { intros i j e. unfold entry. destruct (nth_error blocks i) as [r|]; [|split; [discriminate|intros (r & X & _); discriminate]].
      split.
      - destruct (nth_error r j) as [x|] eqn:E; [|discriminate]. intros ->. eauto.
      - intros (r' & X & Y). injection X as ->. rewrite Y. auto. }
    assert (IN : forall i j e, entry blocks i j = Some e -> i < length R /\ j < length C).
    { intros i j e H. apply EN in H. destruct H as (r & H1 & H2). split; [rewrite <- LB; apply nth_error_Some; congruence|].
      rewrite <- (LC r) by (eapply nth_error_In; eauto). apply nth_error_Some. congruence. }
    assert (BE : forall i j e, entry blocks i j = Some e -> exists o, build e = Ok o /\ wf o /\ meq (den pinv o) (M i j)).
    { intros i j e H. destruct (IN _ _ _ H) as (Hi & Hj). destruct (HV i j Hi Hj) as (V & _). unfold blockValue in V. rewrite H in V.
      destruct (@build_ok K pinv HP e (HA _ _ _ H) _ V) as (o & A & B & C0 & _). eauto. }
    assert (BR : forall i r, nth_error blocks i = Some r -> exists r', mapRes (@buildEntry K) r = Ok r' /\ length r' = length r /\
       forall j x, nth_error r j = Some x -> exists y, nth_error r' j = Some y /\ buildEntry x = Ok y).
    { intros i r Hr. apply mapRes_nth. intros x Hx. apply In_nth_error in Hx. destruct Hx as (j & Hx). destruct x as [e|]; cbn; [|eauto].
      destruct (BE i j e) as (o & -> & _); [apply EN; eauto|]. cbn. eauto. }
    destruct (mapRes_nth (mapRes (@buildEntry K)) blocks) as (ops & Eops & Lops & Nops).
    { intros r Hr. apply In_nth_error in Hr. destruct Hr as (i & Hr). destruct (BR i r Hr) as (r' & -> & _). eauto. }
    assert (OPS : forall i r', nth_error ops i = Some r' -> exists r, nth_error blocks i = Some r /\ mapRes (@buildEntry K) r = Ok r' /\ length r' = length r /\
       forall j x, nth_error r j = Some x -> exists y, nth_error r' j = Some y /\ buildEntry x = Ok y).
    { intros i r' H. assert (i < length blocks) by (rewrite <- Lops; apply nth_error_Some; congruence).
      destruct (nth_error blocks i) as [r|] eqn:E; [|apply nth_error_None in E; lia]. destruct (Nops i r E) as (r2 & X & Y). assert (r2 = r') as -> by congruence.
      destruct (BR i r E) as (r3 & Z1 & Z2 & Z3). assert (r3 = r') as -> by congruence. exists r. auto. }
    (* entries of the array of operators *)
    assert (OE : forall i j r' x, nth_error ops i = Some r' -> nth_error r' j = Some x -> exists e, (exists r, nth_error blocks i = Some r /\ nth_error r j = Some e) /\ buildEntry e = Ok x).
    { intros i j r' x H1 H2. destruct (OPS i r' H1) as (r & Hr & _ & Lr & Nr). assert (j < length r) by (rewrite <- Lr; apply nth_error_Some; congruence).
      destruct (nth_error r j) as [e|] eqn:E; [|apply nth_error_None in E; lia]. destruct (Nr j e E) as (y & Y1 & Y2). assert (y = x) as -> by congruence. exists e. split; eauto. }
    assert (FIT : forall i j r' o, nth_error ops i = Some r' -> nth_error r' j = Some (Some o) ->
       exists e, entry blocks i j = Some e /\ wf o /\ meq (den pinv o) (M i j)).
    { intros i j r' o H1 H2. destruct (OE i j r' (Some o) H1 H2) as ([e|] & (r & Hr & He) & B); [|discriminate]. assert (X : entry blocks i j = Some e) by (apply EN; eauto).
      destruct (BE _ _ _ X) as (o' & B' & W & Mo). cbn in B. rewrite B' in B. cbn in B. injection B as ->. eauto. }
    cbn [bbuild]. rewrite Eops. cbn [bind]. rewrite (@mkBlocked_ok R C ops).
    - cbn [bind]. eexists. split; [reflexivity|]. apply blk_ok; auto.
      + cbn. unfold filledOps. rewrite map_length, combine_length. lia.
      + cbn. intros r Hr. unfold filledOps in Hr. apply in_map_iff in Hr. destruct Hr as ((d, r') & <- & Hr). rewrite map_length, combine_length.
        apply In_nth_error in Hr. destruct Hr as (i & Hr). apply nth_error_combine in Hr. destruct Hr as (_ & Hr). destruct (OPS _ _ Hr) as (r & H1 & _ & H2 & _).
        cbn [snd]. rewrite H2, (LC r) by (eapply nth_error_In; eauto). lia.
      + intros i j Hi Hj. cbn [bget bl_ops]. unfold filledOps.
        destruct (nth_error ops i) as [r'|] eqn:Er; [|apply nth_error_None in Er; lia]. destruct (OPS _ _ Er) as (r & H1 & _ & H2 & H3).
        assert (Lr : length r = length C) by (apply LC; eapply nth_error_In; eauto).
        destruct (nth_error r' j) as [x|] eqn:Ex; [|apply nth_error_None in Ex; lia].
        destruct (nth_error R i) as [rd|] eqn:ERi; [|apply nth_error_None in ERi; lia]. destruct (nth_error C j) as [cd|] eqn:ECj; [|apply nth_error_None in ECj; lia].
        assert (E1 : nth_error (combine R ops) i = Some (rd, r')) by (apply nth_error_combine; auto).
        assert (E2 : nth_error (combine C r') j = Some (cd, x)) by (apply nth_error_combine; auto).
        rewrite (map_nth_error _ _ _ E1). cbn [fst snd]. rewrite (map_nth_error _ _ _ E2). cbn [fst snd]. eexists. split; [reflexivity|].
        destruct x as [o|].
        * destruct (FIT i j r' o Er Ex) as (e & _ & W & Mo). split; auto. eapply meq_trans; [exact Mo|]. apply meq_sym. apply MB; auto.
        * split; [exact I|]. destruct (OE i j r' None Er Ex) as ([e|] & (r2 & Hr2 & He) & B); [cbn in B; destruct (build e); discriminate|].
          destruct (HV i j Hi Hj) as (V & _). unfold blockValue, entry in V. rewrite Hr2, He in V. injection V as V.
          cbn [den]. rewrite <- (nth_error_nth _ _ 0 ERi), <- (nth_error_nth _ _ 0 ECj), V. apply meq_sym. apply MB; auto.
    - auto.
    - congruence.
    - intros r Hr. apply In_nth_error in Hr. destruct Hr as (i & Hr). destruct (OPS _ _ Hr) as (r2 & H1 & _ & H2 & _). rewrite H2. apply LC. eapply nth_error_In; eauto.
    - intros i j r' o H1 H2. destruct (FIT i j r' o H1 H2) as (e & He & W & Mo). destruct (IN _ _ _ He) as (Hi & Hj). destruct (HV i j Hi Hj) as (_ & V1 & V2).
      rewrite (@wf_shape _ _ W Mo). cbn [fst snd]. rewrite V1, V2. split; apply nth_error_nth'; auto.
    - split.
      + intros i Hi. destruct (HR i Hi) as (j & e & H). apply EN in H. destruct H as (r & H1 & H2). destruct (BR i r H1) as (r' & X1 & X2 & X3). destruct (X3 j _ H2) as (y & Y1 & Y2).
        destruct (BE i j e) as (o & B & _); [apply EN; eauto|]. cbn in Y2. rewrite B in Y2. cbn in Y2. injection Y2 as <-.
        destruct (Nops i r H1) as (r2 & Z1 & Z2). assert (r2 = r') as -> by congruence. eauto.
      + intros j Hj. destruct (HC j Hj) as (i & e & H). apply EN in H. destruct H as (r & H1 & H2). destruct (BR i r H1) as (r' & X1 & X2 & X3). destruct (X3 j _ H2) as (y & Y1 & Y2).
        destruct (BE i j e) as (o & B & _); [apply EN; eauto|]. cbn in Y2. rewrite B in Y2. cbn in Y2. injection Y2 as <-.
        destruct (Nops i r H1) as (r2 & Z1 & Z2). assert (r2 = r') as -> by congruence. eauto.
  Qed.
  Theorem bbuild_ok e R C m : hasValue pinv e R C m -> exists o, bbuild e = Ok o /\ binv o R C m.
  Proof.
    induction 1 as [blocks R C M m|a b R C m n _ (o1 & E1 & I1) _ (o2 & E2 & I2)|a b R C m n _ (o1 & E1 & I1) _ (o2 & E2 & I2)
                   |a b R D C m n _ (o1 & E1 & I1) _ (o2 & E2 & I2)|c a R C m _ (o1 & E1 & I1)|a R C m _ (o1 & E1 & I1)].
    - eapply leaf_ok; eauto.
    - cbn [bbuild]. rewrite E1, E2. cbn [bind]. apply sum_inv; auto.
    - cbn [bbuild]. rewrite E1, E2. cbn [bind]. apply sum_inv; auto. apply neg_inv; auto.
    - cbn [bbuild]. rewrite E1, E2. cbn [bind]. eapply prod_inv; eauto.
    - cbn [bbuild]. rewrite E1. cbn [bind]. eexists. split; [reflexivity|]. apply scale_inv; auto.
    - cbn [bbuild]. rewrite E1. cbn [bind]. eexists. split; [reflexivity|]. apply neg_inv; auto.
  Qed.
  (** every family of blocks is the block family of some matrix *)
  Fixpoint blockIndex (R : list nat) (p : nat) : nat * nat :=
    match R with
    | [] => (0, 0)
    | r :: R' => if p <? r then (0, p) else let q := blockIndex R' (p - r) in (S (fst q), snd q)
    end.
  Lemma blockIndex_ok R : forall i a, i < length R -> a < nth i R 0 -> blockIndex R (off R i + a) = (i, a).
  Proof.
    induction R as [|r R IH]; intros [|i] a Hi Ha; cbn [length nth] in *; try lia.
    - unfold off. cbn [firstn list_sum fold_right plus blockIndex]. apply Nat.ltb_lt in Ha. rewrite Ha. auto.
    - rewrite off_cons. cbn [blockIndex]. replace (_ <? _) with false by (symmetry; apply Nat.ltb_ge; lia).
      replace (r + off R i + a - r) with (off R i + a) by lia. rewrite IH by (auto; lia). reflexivity.
  Qed.
  Lemma block_matrix_exists R C (M : nat -> nat -> matrix) :
    (forall i j, i < length R -> j < length C -> m_rows (M i j) = nth i R 0 /\ m_cols (M i j) = nth j C 0) -> exists m, isBlockMatrix R C M m.
  Proof.
    intros H. exists (Mat (list_sum R) (list_sum C) (fun p q => m_at (M (fst (blockIndex R p)) (fst (blockIndex C q))) (snd (blockIndex R p)) (snd (blockIndex C q)))).
    split; auto. split; auto. intros i j Hi Hj. destruct (H i j Hi Hj) as (A & B). split; [auto|]. split; [auto|]. cbn. intros a b Ha Hb.
    rewrite !blockIndex_ok by auto. reflexivity.
  Qed.
End Proofs.
