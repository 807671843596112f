From Verif Require Import Base AsmModel AsmSpec ParProofs AsmProofs DofListModel DofListSpec DofListProofs HBlockModel.
Set Implicit Arguments.

Section HB.
  Variable K : star_ring.
  Add Ring Kr3 : (sr_ring K).
  Implicit Types S T U : space K.

  Lemma addAll_ok (us : list (nat * nat * K)) : forall m, (forall r c v, In (r, c, v) us -> r < m_rows m /\ c < m_cols m) ->
    exists m', addAll m us = Some m' /\ m_rows m' = m_rows m /\ m_cols m' = m_cols m /\
      forall r c, m_at m' r c = add (m_at m r c) (sumUps K us r c).
  Proof.
    induction us as [|[[r c] v] us IH]; intros m H; cbn [addAll].
    - exists m. repeat split. intros. unfold sumUps. rewrite bsum_nil. ring.
    - unfold addAt. destruct (H r c v (or_introl eq_refl)) as [Hr Hc].
      unfold inBounds. rewrite (proj2 (Nat.ltb_lt _ _) Hr), (proj2 (Nat.ltb_lt _ _) Hc). cbn [andb].
      destruct (IH (setAt m r c (add (m_at m r c) v))) as (m' & E & Er & Ec & Hm). { cbn. intros; eapply H; right; eauto. }
      exists m'. split; [exact E|]. split; [exact Er|]. split; [exact Ec|]. intros r' c'. rewrite Hm. cbn [setAt m_at].
      unfold sumUps. rewrite bsum_cons. destruct (Nat.eqb_spec r' r) as [->|]; [destruct (Nat.eqb_spec c' c) as [->|]|]; cbn [andb]; ring.
  Qed.

  Lemma entries_sum (L : dofLists K) (F : nat -> nat -> K -> nat -> K) :
    bsum (entries L) (fun x => let '(e, i, w, a) := x in F e i w a) =
    bsum (dl_groups L) (fun g => bsum (snd g) (fun x => let '(i, w, a) := x in F (fst g) i w a)).
  Proof.
    unfold entries. rewrite bsum_flat_map. apply bsum_ext. intros g _. rewrite bsum_map. apply bsum_ext. intros [[i w] a] _. reflexivity.
  Qed.
  Lemma wanted_sum S p2o start count a0 (F : nat -> nat -> K -> K) : a0 < count ->
    bsum (wanted S p2o start count) (fun x => let '(e, i, w, a) := x in if a0 =? a then F e i w else zero) =
    bsum (support S (nth (start + a0) p2o 0)) (fun x => let '(e, i, w) := x in F e i w).
  Proof.
    intros H. unfold wanted. rewrite bsum_flat_map.
    rewrite <- (@bsum_seq_delta K count (fun a => bsum (support S (nth (start + a) p2o 0)) (fun x => let '(e, i, w) := x in F e i w)) a0 H).
    apply bsum_ext. intros a _. rewrite bsum_map. destruct (Nat.eqb_spec a0 a) as [->|Hne].
    - apply bsum_ext. intros [[e i] w] _. now rewrite Nat.eqb_refl.
    - apply bsum_zero. intros [[e i] w] _. destruct (Nat.eqb_spec a0 a); [lia|reflexivity].
  Qed.
  Lemma wanted_arr S p2o start count e i w a : In (e, i, w, a) (wanted S p2o start count) -> a < count.
  Proof.
    unfold wanted. intros H. apply in_flat_map in H. destruct H as (b & Hb & H). apply in_seq in Hb. apply in_map_iff in H.
    destruct H as ([[? ?] ?] & E & _). inversion E; subst. lia.
  Qed.
  Lemma in_entries (L : dofLists K) e i w a g : In (e, g) (dl_groups L) -> In (i, w, a) g -> In (e, i, w, a) (entries L).
  Proof. intros H1 H2. unfold entries. apply in_flat_map. exists (e, g). split; [exact H1|]. apply in_map_iff. exists (i, w, a). auto. Qed.

  (** the canonical sum *)
  Definition canon (terms : list (term K)) (LT LU : dofLists K) (r c : nat) : K :=
    bsum terms (fun t =>
      bsum (entries LT) (fun x => let '(e, i, w, row) := x in
        bsum (entries LU) (fun y => let '(f, j, v, col) := y in
          if r =? row then (if c =? col then entryValue t e f i j w v else zero) else zero))).

  Lemma sumUps_map A (l : list A) (f : A -> nat * nat * K) r c :
    sumUps K (map f l) r c = bsum l (fun a => sumUps K [f a] r c).
  Proof. unfold sumUps. rewrite bsum_map. apply bsum_ext. intros a _. rewrite bsum_cons, bsum_nil. ring. Qed.
  Lemma sumUps_one r' c' (v : K) r c : sumUps K [(r', c', v)] r c = if r =? r' then (if c =? c' then v else zero) else zero.
  Proof. unfold sumUps. rewrite bsum_cons, bsum_nil. destruct (r =? r'), (c =? c'); cbn; ring. Qed.

  Lemma fat_sum terms LT LU r c : sumUps K (fatUpdates terms LT LU) r c = canon terms LT LU r c.
  Proof.
    unfold fatUpdates, canon. rewrite sumUps_flat_map. apply bsum_ext. intros t _. rewrite sumUps_flat_map.
    transitivity (bsum (entries LU) (fun y => let '(f, j, v, col) := y in bsum (entries LT) (fun x => let '(e, i, w, row) := x in
       if r =? row then (if c =? col then entryValue t e f i j w v else zero) else zero))).
    - rewrite (entries_sum LU). apply bsum_ext. intros gu _. rewrite sumUps_flat_map. apply bsum_ext. intros [[j v] col] _.
      rewrite sumUps_flat_map. rewrite (entries_sum LT). apply bsum_ext. intros gt _. rewrite sumUps_map. apply bsum_ext.
      intros [[i w] row] _. apply sumUps_one.
    - rewrite (bsum_ext (entries LU) _ (fun y => bsum (entries LT) (fun x => let '(e, i, w, row) := x in let '(f, j, v, col) := y in
         if r =? row then (if c =? col then entryValue t e f i j w v else zero) else zero))).
      2:{ intros [[[f j] v] col] _. apply bsum_ext. intros [[[e i] w] row] _. reflexivity. }
      rewrite bsum_swap. apply bsum_ext. intros [[[e i] w] row] _. apply bsum_ext. intros [[[f j] v] col] _. reflexivity.
  Qed.
  Lemma other_sum terms LT LU r c : sumUps K (otherUpdates terms LT LU) r c = canon terms LT LU r c.
  Proof.
    unfold otherUpdates, canon. rewrite sumUps_flat_map.
    transitivity (bsum (entries LT) (fun x => let '(e, i, w, row) := x in bsum terms (fun t => bsum (entries LU) (fun y => let '(f, j, v, col) := y in
       if r =? row then (if c =? col then entryValue t e f i j w v else zero) else zero)))).
    - rewrite (entries_sum LT). apply bsum_ext. intros gt _. rewrite sumUps_flat_map. apply bsum_ext. intros [[i w] row] _.
      rewrite sumUps_flat_map. apply bsum_ext. intros t _. rewrite sumUps_flat_map, (entries_sum LU). apply bsum_ext. intros gu _.
      rewrite sumUps_map. apply bsum_ext. intros [[j v] col] _. apply sumUps_one.
    - rewrite (bsum_ext (entries LT) _ (fun x => bsum terms (fun t => let '(e, i, w, row) := x in bsum (entries LU) (fun y => let '(f, j, v, col) := y in
         if r =? row then (if c =? col then entryValue t e f i j w v else zero) else zero)))).
      2:{ intros [[[e i] w] row] _. reflexivity. }
      apply bsum_swap.
  Qed.
  Lemma column_sum terms LT LU r c : (forall e i w a, In (e, i, w, a) (entries LU) -> a = 0) ->
    sumUps K (columnUpdates terms LT LU) r c = canon terms LT LU r c.
  Proof.
    intros H0. rewrite <- fat_sum. unfold columnUpdates, fatUpdates. rewrite !sumUps_flat_map.
    rewrite (bsum_ext terms _ (fun t => bsum (dl_groups LU) (fun gu => sumUps K (flat_map (fun y => let '(j, v, col) := y in
      flat_map (fun gt => map (fun x => let '(i, w, row) := x in (row, col, entryValue t (fst gt) (fst gu) i j w v)) (snd gt)) (dl_groups LT)) (snd gu)) r c))).
    2:{ intros t _. apply sumUps_flat_map. }
    rewrite bsum_swap. apply bsum_ext. intros [f g] Hg. cbn [fst snd]. rewrite !sumUps_flat_map.
    rewrite (bsum_ext terms _ (fun t => bsum g (fun y => sumUps K (let '(j, v, col) := y in
      flat_map (fun gt => map (fun x => let '(i, w, row) := x in (row, col, entryValue t (fst gt) f i j w v)) (snd gt)) (dl_groups LT)) r c))).
    2:{ intros t _. apply sumUps_flat_map. }
    rewrite bsum_swap. apply bsum_ext. intros [[j v] col] Hy. rewrite sumUps_flat_map.
    rewrite (H0 f j v col) by (eapply in_entries; eauto). reflexivity.
  Qed.
  Lemma row_sum terms LT LU r c : (forall e i w a, In (e, i, w, a) (entries LT) -> a = 0) ->
    sumUps K (rowUpdates terms LT LU) r c = canon terms LT LU r c.
  Proof.
    intros H0. rewrite <- other_sum. unfold rowUpdates, otherUpdates. rewrite !sumUps_flat_map. apply bsum_ext. intros [e g] Hg.
    cbn [fst snd]. rewrite !sumUps_flat_map. apply bsum_ext. intros [[i w] row] Hx. rewrite (H0 e i w row) by (eapply in_entries; eauto). reflexivity.
  Qed.

  Lemma canon_galerkin T U pT pU terms LT LU r0 c0 nr nc r c :
    Permutation (entries LT) (wanted T pT r0 nr) -> Permutation (entries LU) (wanted U pU c0 nc) -> r < nr -> c < nc ->
    canon terms LT LU r c = bsum terms (fun t => mul (fst t) (galerkin T U (snd t) (nth (r0 + r) pT 0) (nth (c0 + c) pU 0))).
  Proof.
    intros PT PU Hr Hc. unfold canon. apply bsum_ext. intros t _. rewrite (bsum_perm _ PT).
    rewrite (bsum_ext (wanted T pT r0 nr) _ (fun x => let '(e, i, w, row) := x in if r =? row then
       bsum (support U (nth (c0 + c) pU 0)) (fun y => let '(f, j, v) := y in entryValue t e f i j w v) else zero)).
    - rewrite (@wanted_sum T pT r0 nr r (fun e i w => bsum (support U (nth (c0 + c) pU 0)) (fun y => let '(f, j, v) := y in entryValue t e f i j w v))) by exact Hr.
      unfold galerkin. rewrite <- bsum_mul_l. apply bsum_ext. intros [[e i] w] _. rewrite <- bsum_mul_l. apply bsum_ext. intros [[f j] v] _.
      unfold entryValue. ring.
    - intros [[[e i] w] row] _. destruct (r =? row).
      + rewrite (bsum_perm _ PU). apply (@wanted_sum U pU c0 nc c (fun f j v => entryValue t e f i j w v) Hc).
      + apply bsum_zero. now intros [[[f j] v] col] _.
  Qed.

  Definition boundedBy (us : list (nat * nat * K)) nr nc := forall r c v, In (r, c, v) us -> r < nr /\ c < nc.
  Lemma fat_bounded terms (LT LU : dofLists K) nr nc :
    (forall e i w a, In (e, i, w, a) (entries LT) -> a < nr) -> (forall e i w a, In (e, i, w, a) (entries LU) -> a < nc) ->
    boundedBy (fatUpdates terms LT LU) nr nc /\ boundedBy (otherUpdates terms LT LU) nr nc /\
    (0 < nc -> boundedBy (columnUpdates terms LT LU) nr nc) /\ (0 < nr -> boundedBy (rowUpdates terms LT LU) nr nc).
  Proof.
    intros H1 H2. split; [|split; [|split]].
    - intros r c v H. unfold fatUpdates in H. apply in_flat_map in H. destruct H as (t & _ & H). apply in_flat_map in H. destruct H as ([f gu] & Hgu & H).
      apply in_flat_map in H. destruct H as ([[j vv] col] & Hy & H). apply in_flat_map in H. destruct H as ([e gt] & Hgt & H). apply in_map_iff in H.
      destruct H as ([[i w] row] & E & Hx). inversion E; subst. split; [eapply H1|eapply H2]; eapply in_entries; eauto.
    - intros r c v H. unfold otherUpdates in H. apply in_flat_map in H. destruct H as ([e gt] & Hgt & H).
      apply in_flat_map in H. destruct H as ([[i w] row] & Hx & H). apply in_flat_map in H. destruct H as (t & _ & H).
      apply in_flat_map in H. destruct H as ([f gu] & Hgu & H). apply in_map_iff in H.
      destruct H as ([[j vv] col] & E & Hy). inversion E; subst. split; [eapply H1|eapply H2]; eapply in_entries; eauto.
    - intros Hn r c v H. unfold columnUpdates in H. apply in_flat_map in H. destruct H as ([f gu] & Hgu & H).
      apply in_flat_map in H. destruct H as ([[j vv] col] & Hy & H). apply in_flat_map in H. destruct H as (t & _ & H).
      apply in_flat_map in H. destruct H as ([e gt] & Hgt & H). apply in_map_iff in H.
      destruct H as ([[i w] row] & E & Hx). inversion E; subst. split; [eapply H1; eapply in_entries; eauto|exact Hn].
    - intros Hn r c v H. unfold rowUpdates in H. apply in_flat_map in H. destruct H as ([e gt] & Hgt & H).
      apply in_flat_map in H. destruct H as ([[i w] row] & Hx & H). apply in_flat_map in H. destruct H as (t & _ & H).
      apply in_flat_map in H. destruct H as ([f gu] & Hgu & H). apply in_map_iff in H.
      destruct H as ([[j vv] col] & E & Hy). inversion E; subst. split; [exact Hn|eapply H2; eapply in_entries; eauto].
  Qed.

  Theorem block_ok T U pT pU terms r0 r1 c0 c1 :
    g2lInverse T -> g2lInverse U -> validPerm T pT -> validPerm U pU ->
    r0 <= r1 <= length pT -> c0 <= c1 <= length pU ->
    exists m, computeMatrixBlock T U pT pU terms 0 r0 r1 c0 c1 = Some m /\ m_rows m = r1 - r0 /\ m_cols m = c1 - c0 /\
      forall r c, r < r1 - r0 -> c < c1 - c0 ->
        m_at m r c = bsum terms (fun t => mul (fst t) (galerkin T U (snd t) (nth (r0 + r) pT 0) (nth (c0 + c) pU 0))).
  Proof.
    intros GT GU VT VU Hr Hc. unfold computeMatrixBlock.
    destruct (Nat.ltb_spec r1 r0); [lia|]. destruct (Nat.ltb_spec c1 c0); [lia|]. cbn [orb]. cbv zeta.
    destruct (@getLists_ok K T pT r0 (r1 - r0) GT VT ltac:(lia)) as (LT & ET & _ & PT).
    destruct (@getLists_ok K U pU c0 (c1 - c0) GU VU ltac:(lia)) as (LU & EU & _ & PU). rewrite ET, EU.
    assert (BT : forall e i w a, In (e, i, w, a) (entries LT) -> a < r1 - r0) by (intros; eapply wanted_arr; eapply Permutation_in; eauto).
    assert (BU : forall e i w a, In (e, i, w, a) (entries LU) -> a < c1 - c0) by (intros; eapply wanted_arr; eapply Permutation_in; eauto).
    destruct (fat_bounded terms LT LU BT BU) as (B1 & B2 & B3 & B4).
    match goal with |- context [addAll _ ?u] => set (us := u) end.
    assert (Hus : boundedBy us (r1 - r0) (c1 - c0) /\ forall r c, sumUps K us r c = canon terms LT LU r c).
    { unfold us. destruct (Nat.eqb_spec (c1 - c0) 1) as [E1|N1].
      - split; [apply B3; lia|]. intros r c. apply column_sum. intros e i w a Hin. specialize (BU _ _ _ _ Hin). lia.
      - destruct (Nat.eqb_spec (r1 - r0) 1) as [E2|N2].
        + split; [apply B4; lia|]. intros r c. apply row_sum. intros e i w a Hin. specialize (BT _ _ _ _ Hin). lia.
        + destruct ((_ <=? 32) && _); [split; [exact B1|intros; apply fat_sum]|split; [exact B2|intros; apply other_sum]]. }
    destruct Hus as [Hb Hsum]. destruct (@addAll_ok us (zeroMat (r1 - r0) (c1 - c0)) Hb) as (m & -> & E1 & E2 & Hm).
    exists m. cbn [Nat.eqb]. split; [reflexivity|]. split; [exact E1|]. split; [exact E2|]. intros r c Hrr Hcc. rewrite Hm, Hsum.
    rewrite (@canon_galerkin T U pT pU terms LT LU r0 c0 (r1 - r0) (c1 - c0)) by assumption. cbn [zeroMat m_at]. ring.
  Qed.
  Theorem sparse_throws T U pT pU terms sparse r0 r1 c0 c1 : 0 < sparse -> computeMatrixBlock T U pT pU terms sparse r0 r1 c0 c1 = None.
  Proof.
    intros H. unfold computeMatrixBlock. destruct (_ || _); [reflexivity|]. cbv zeta. destruct (getLists _ _ _ _); [|reflexivity].
    destruct (getLists _ _ _ _); [|reflexivity]. destruct (addAll _ _); [|reflexivity]. destruct (Nat.eqb_spec sparse 0); [lia|reflexivity].
  Qed.

  (** ---- potentials ---- *)
  Implicit Type P : nat -> nat -> nat -> nat -> K.
  Definition pcanon P (LC : compLists) (LU : dofLists K) (r c : nat) : K :=
    bsum (centries LC) (fun x => let '(p, k, row) := x in
      bsum (entries LU) (fun y => let '(f, j, v, col) := y in
        if r =? row then (if c =? col then mul v (P p f k j) else zero) else zero)).
  Lemma centries_sum (L : compLists) (F : nat -> nat -> nat -> K) :
    bsum (centries L) (fun x => let '(p, k, a) := x in F p k a) = bsum L (fun g => bsum (snd g) (fun x => let '(k, a) := x in F (fst g) k a)).
  Proof.
    unfold centries. rewrite bsum_flat_map. apply bsum_ext. intros g _. rewrite bsum_map. apply bsum_ext. intros [k a] _. reflexivity.
  Qed.
  Lemma pfat_sum P LC LU r c : sumUps K (pFat P LC LU) r c = pcanon P LC LU r c.
  Proof.
    unfold pFat, pcanon. rewrite sumUps_flat_map.
    transitivity (bsum (entries LU) (fun y => let '(f, j, v, col) := y in bsum (centries LC) (fun x => let '(p, k, row) := x in
       if r =? row then (if c =? col then mul v (P p f k j) else zero) else zero))).
    - rewrite (entries_sum LU). apply bsum_ext. intros gu _. rewrite sumUps_flat_map. apply bsum_ext. intros [[j v] col] _.
      rewrite sumUps_flat_map. rewrite (centries_sum LC). apply bsum_ext. intros gt _. rewrite sumUps_map. apply bsum_ext.
      intros [k row] _. apply sumUps_one.
    - rewrite (bsum_ext (entries LU) _ (fun y => bsum (centries LC) (fun x => let '(p, k, row) := x in let '(f, j, v, col) := y in
         if r =? row then (if c =? col then mul v (P p f k j) else zero) else zero))).
      2:{ intros [[[f j] v] col] _. apply bsum_ext. intros [[p k] row] _. reflexivity. }
      rewrite bsum_swap. apply bsum_ext. intros [[p k] row] _. apply bsum_ext. intros [[[f j] v] col] _. reflexivity.
  Qed.
  Lemma pcolumn_sum P LC LU r c : (forall e i w a, In (e, i, w, a) (entries LU) -> a = 0) ->
    sumUps K (pColumn P LC LU) r c = pcanon P LC LU r c.
  Proof.
    intros H0. rewrite <- pfat_sum. unfold pColumn, pFat. rewrite !sumUps_flat_map. apply bsum_ext. intros [f g] Hg. cbn [fst snd].
    rewrite !sumUps_flat_map. apply bsum_ext. intros [[j v] col] Hy. rewrite (H0 f j v col) by (eapply in_entries; eauto). reflexivity.
  Qed.

  Lemma cwanted_sum pR comps r0 nr r (F : nat -> nat -> K) : r < nr ->
    bsum (cwanted pR comps r0 nr) (fun x => let '(p, k, a) := x in if r =? a then F p k else zero) =
    F (nth (r0 + r) pR 0 / comps) (nth (r0 + r) pR 0 mod comps).
  Proof.
    intros H. unfold cwanted. rewrite bsum_map. apply (@bsum_seq_delta K nr (fun a => F (nth (r0 + a) pR 0 / comps) (nth (r0 + a) pR 0 mod comps)) r H).
  Qed.
  Lemma pcanon_potential U pR pU comps P LC LU r0 c0 nr nc r c :
    Permutation (centries LC) (cwanted pR comps r0 nr) -> Permutation (entries LU) (wanted U pU c0 nc) -> r < nr -> c < nc ->
    pcanon P LC LU r c = potential U P (nth (r0 + r) pR 0 / comps) (nth (r0 + r) pR 0 mod comps) (nth (c0 + c) pU 0).
  Proof.
    intros PC PU Hr Hc. unfold pcanon. rewrite (bsum_perm _ PC).
    rewrite (bsum_ext (cwanted pR comps r0 nr) _ (fun x => let '(p, k, a) := x in if r =? a then potential U P p k (nth (c0 + c) pU 0) else zero)).
    - apply (@cwanted_sum pR comps r0 nr r (fun p k => potential U P p k (nth (c0 + c) pU 0)) Hr).
    - intros [[p k] row] _. destruct (r =? row).
      + rewrite (bsum_perm _ PU). apply (@wanted_sum U pU c0 nc c (fun f j v => mul v (P p f k j)) Hc).
      + apply bsum_zero. now intros [[[f j] v] col] _.
  Qed.

  Theorem potential_block_ok U pR pU comps P r0 r1 c0 c1 :
    g2lInverse U -> validPerm U pU -> 0 < comps ->
    r0 <= r1 <= length pR -> c0 <= c1 <= length pU ->
    exists m, computePotentialBlock U pR pU comps P r0 r1 c0 c1 = Some m /\ m_rows m = r1 - r0 /\ m_cols m = c1 - c0 /\
      forall r c, r < r1 - r0 -> c < c1 - c0 ->
        m_at m r c = potential U P (nth (r0 + r) pR 0 / comps) (nth (r0 + r) pR 0 mod comps) (nth (c0 + c) pU 0).
  Proof.
    intros GU VU Hcomps Hr Hc. unfold computePotentialBlock.
    destruct (Nat.ltb_spec r1 r0); [lia|]. destruct (Nat.ltb_spec c1 c0); [lia|]. cbn [orb]. cbv zeta.
    destruct (@getComponents_ok pR comps r0 (r1 - r0) Hcomps ltac:(lia)) as (LC & EC & PC & _).
    destruct (@getLists_ok K U pU c0 (c1 - c0) GU VU ltac:(lia)) as (LU & EU & _ & PU). rewrite EC, EU.
    assert (BU : forall e i w a, In (e, i, w, a) (entries LU) -> a < c1 - c0) by (intros; eapply wanted_arr; eapply Permutation_in; eauto).
    assert (BC : forall p k a, In (p, k, a) (centries LC) -> a < r1 - r0).
    { intros p k a Hin. pose proof (Permutation_in _ PC Hin) as Hi. unfold cwanted in Hi. apply in_map_iff in Hi. destruct Hi as (i & E & Hi).
      apply in_seq in Hi. inversion E; subst. lia. }
    assert (IC : forall p g k a, In (p, g) LC -> In (k, a) g -> In (p, k, a) (centries LC)).
    { intros p g k a H1 H2. unfold centries. apply in_flat_map. exists (p, g). split; [exact H1|]. apply in_map_iff. exists (k, a). auto. }
    assert (Hus : exists us, (if c1 - c0 =? 1 then Some (pColumn P LC LU) else if r1 - r0 =? 1 then pRow P LC LU else Some (pFat P LC LU)) = Some us /\
        boundedBy us (r1 - r0) (c1 - c0) /\ forall r c, r < r1 - r0 -> sumUps K us r c = pcanon P LC LU r c).
    { destruct (Nat.eqb_spec (c1 - c0) 1) as [E1|N1].
      - eexists. split; [reflexivity|]. split.
        + intros r c v Hin. unfold pColumn in Hin. apply in_flat_map in Hin. destruct Hin as ([f gu] & Hgu & Hin). apply in_flat_map in Hin.
          destruct Hin as ([[j vv] col] & Hy & Hin). apply in_flat_map in Hin. destruct Hin as ([p gp] & Hgp & Hin). apply in_map_iff in Hin.
          destruct Hin as ([k row] & E & Hx). inversion E; subst. split; [eapply BC; eapply IC; eauto|lia].
        + intros r c _. apply pcolumn_sum. intros e i w a Hin. specialize (BU _ _ _ _ Hin). lia.
      - destruct (Nat.eqb_spec (r1 - r0) 1) as [E2|N2].
        + unfold getComponents in EC. rewrite E2, Nat.eqb_refl in EC. unfold findComponentsSingle in EC. destruct (comps =? 0); [discriminate|].
          destruct (nth_error pR r0) as [o|]; [|discriminate]. inversion EC; subst LC. cbn [pRow].
          eexists. split; [reflexivity|]. split.
          * intros r c v Hin. apply in_flat_map in Hin. destruct Hin as ([f gu] & Hgu & Hin). apply in_map_iff in Hin.
            destruct Hin as ([[j vv] col] & E & Hy). inversion E; subst. split; [lia|eapply BU; eapply in_entries; eauto].
          * intros r c Hr0. assert (r = 0) by lia. subst r. unfold pcanon. cbn [centries flat_map map fst snd app]. rewrite bsum_cons, bsum_nil, sumUps_flat_map.
            rewrite (entries_sum LU (fun f j v col => if 0 =? 0 then if c =? col then mul v (P (o / comps) f (o mod comps) j) else zero else zero)).
            cbn [Nat.eqb].
            transitivity (bsum (dl_groups LU) (fun gu => bsum (snd gu) (fun y => let '(j, v, col) := y in if c =? col then mul v (P (o / comps) (fst gu) (o mod comps) j) else zero))); [|ring].
            apply bsum_ext. intros gu _. rewrite sumUps_map. apply bsum_ext. intros [[j v] col] _. rewrite sumUps_one. reflexivity.
        + eexists. split; [reflexivity|]. split; [|intros; apply pfat_sum].
          intros r c v Hin. unfold pFat in Hin. apply in_flat_map in Hin. destruct Hin as ([f gu] & Hgu & Hin). apply in_flat_map in Hin.
          destruct Hin as ([[j vv] col] & Hy & Hin). apply in_flat_map in Hin. destruct Hin as ([p gp] & Hgp & Hin). apply in_map_iff in Hin.
          destruct Hin as ([k row] & E & Hx). inversion E; subst. split; [eapply BC; eapply IC; eauto|eapply BU; eapply in_entries; eauto]. }
    destruct Hus as (us & -> & Hb & Hsum). destruct (@addAll_ok us (zeroMat (r1 - r0) (c1 - c0)) Hb) as (m & -> & E1 & E2 & Hm).
    exists m. split; [reflexivity|]. split; [exact E1|]. split; [exact E2|]. intros r c Hrr Hcc. rewrite Hm, Hsum by exact Hrr.
    rewrite (@pcanon_potential U pR pU comps P LC LU r0 c0 (r1 - r0) (c1 - c0)) by assumption. cbn [zeroMat m_at]. ring.
  Qed.
End HB.
