From Verif Require Import Base AsmModel AsmSpec ParProofs.
Set Implicit Arguments.

Section Asm.
  Variable K : star_ring.
  Implicit Types T U : space K.
  Add Ring Kr2 : (sr_ring K).

  Lemma sumUps_flat_map A (l : list A) (f : A -> list (nat * nat * K)) r c :
    sumUps _ (flat_map f l) r c = bsum l (fun a => sumUps _ (f a) r c).
  Proof. unfold sumUps. apply bsum_flat_map. Qed.

  (** sum over the local dofs of one element attached to global dof d *)
  Definition loc (ds : list (Z * K)) (d : nat) (F : nat -> K -> K) : K :=
    bsum (enumerate ds) (fun x => let '(i, (g, w)) := x in if (g =? Z.of_nat d)%Z then F i w else zero).

  Lemma loc_ext ds d F G : (forall i w, F i w = G i w) -> loc ds d F = loc ds d G.
  Proof. intros H. unfold loc. apply bsum_ext. intros [i [g w]] _. now rewrite H. Qed.

  Lemma combine_seq_nth {A} (l : list A) a (f : nat * A -> K) :
    bsum (combine (seq a (length l)) l) f =
    bsum (seq 0 (length l)) (fun i => match nth_error l i with Some x => f (a + i, x) | None => zero end).
  Proof.
    revert a. induction l as [|x l IH]; intros a; [reflexivity|]. cbn [length seq combine]. rewrite !bsum_cons. cbn [nth_error].
    rewrite Nat.add_0_r. f_equal. rewrite IH. rewrite <- seq_shift, bsum_map. apply bsum_ext. intros i _. cbn [nth_error].
    replace (S a + i) with (a + S i) by lia. reflexivity.
  Qed.
  Lemma in_enumerate {A} (l : list A) i x : In (i, x) (enumerate l) <-> nth_error l i = Some x.
  Proof.
    unfold enumerate. assert (G : forall a, In (i, x) (combine (seq a (length l)) l) <-> a <= i /\ nth_error l (i - a) = Some x).
    { induction l as [|y l IH]; intros a; cbn [length seq combine].
      - split; [intros []|]. intros [_ H]. destruct (i - a); discriminate.
      - cbn [In]. rewrite IH. split.
        + intros [E|[H1 H2]]; [inversion E; subst; split; [lia|]; now rewrite Nat.sub_diag|].
          split; [lia|]. replace (i - a) with (S (i - S a)) by lia. exact H2.
        + intros [H1 H2]. destruct (Nat.eq_dec a i) as [->|Hne].
          * rewrite Nat.sub_diag in H2. inversion H2. now left.
          * right. split; [lia|]. replace (i - a) with (S (i - S a)) in H2 by lia. exact H2. }
    rewrite G, Nat.sub_0_r. intuition lia.
  Qed.
  Lemma loc_none ds d F : (forall g w, In (g, w) ds -> g <> Z.of_nat d) -> loc ds d F = zero.
  Proof.
    intros H. unfold loc. apply bsum_zero. intros [i [g w]] Hin. apply in_enumerate in Hin. apply nth_error_In in Hin.
    destruct (Z.eqb_spec g (Z.of_nat d)) as [E|]; [|reflexivity]. exfalso. eapply H; eauto.
  Qed.

  Lemma support_sum (S : space K) d (G : nat * nat * K -> K) :
    bsum (support S d) G = bsum (seq 0 (length (sp_dofs S))) (fun e => loc (nth e (sp_dofs S) []) d (fun i w => G (e, i, w))).
  Proof.
    unfold support. rewrite bsum_flat_map. apply bsum_ext. intros e _. rewrite bsum_flat_map.
    unfold loc, enumerate. rewrite combine_seq_nth. apply bsum_ext. intros i _. cbn [Nat.add].
    destruct (nth_error (nth e (sp_dofs S) []) i) as [[g w]|]; [|reflexivity].
    destruct (g =? Z.of_nat d)%Z; [|reflexivity]. rewrite bsum_cons, bsum_nil. ring.
  Qed.

  Lemma sum_out A (l : list A) (b : bool) (f : A -> K) : (if b then bsum l f else zero) = bsum l (fun a => if b then f a else zero).
  Proof. destruct b; [reflexivity|]. symmetry. now apply bsum_zero. Qed.
  Lemma loc_sum A (l : list A) ds d (F : A -> nat -> K -> K) :
    loc ds d (fun i w => bsum l (fun a => F a i w)) = bsum l (fun a => loc ds d (F a)).
  Proof.
    unfold loc. rewrite <- bsum_swap. apply bsum_ext. intros [i [g w]] _. apply sum_out.
  Qed.
  Lemma loc_loc ds d es e (F : nat -> K -> nat -> K -> K) :
    loc ds d (fun i w => loc es e (fun j v => F i w j v)) = loc es e (fun j v => loc ds d (fun i w => F i w j v)).
  Proof.
    unfold loc at 2. rewrite loc_sum. unfold loc at 2. apply bsum_ext. intros [j [g v]] _.
    destruct (g =? Z.of_nat e)%Z; [reflexivity|]. unfold loc. apply bsum_zero. intros [i [g' w]] _. now destruct (_ =? _)%Z.
  Qed.

  Definition inner (T U : space K) (A : nat -> nat -> nat -> nat -> K) te tr r c : K :=
    loc (nth tr (sp_dofs U) []) c (fun j wtr => loc (nth te (sp_dofs T) []) r (fun i wte => mul (mul (conj wte) wtr) (A te tr i j))).
  Lemma galerkin_inner T U A r c : galerkin T U A r c =
    bsum (seq 0 (length (sp_dofs U))) (fun tr => bsum (seq 0 (length (sp_dofs T))) (fun te => inner T U A te tr r c)).
  Proof.
    unfold galerkin. rewrite support_sum. rewrite bsum_swap. apply bsum_ext. intros te _.
    rewrite (@loc_ext _ _ _ (fun i w => bsum (seq 0 (length (sp_dofs U))) (fun tr =>
       loc (nth tr (sp_dofs U) []) c (fun j v => mul (mul (conj w) v) (A te tr i j))))).
    - rewrite loc_sum. apply bsum_ext. intros tr _. unfold inner. now rewrite loc_loc.
    - intros i w. rewrite support_sum. reflexivity.
  Qed.

  Lemma sum_if_nested b1 b2 b (x : K) : b = b1 && b2 -> (if b then x else zero) = (if b1 then if b2 then x else zero else zero).
  Proof. intros ->. now destruct b1, b2. Qed.

  Lemma trialUpdates_sum T U A rows tr r c :
    sumUps _ (trialUpdates T U A rows tr) r c = bsum rows (fun te => inner T U A te tr r c).
  Proof.
    unfold trialUpdates. rewrite sumUps_flat_map. apply bsum_ext. intros te _. rewrite sumUps_flat_map.
    unfold inner, loc at 1. apply bsum_ext. intros [j [gd wtr]] _.
    destruct (Z.ltb_spec gd 0) as [Hn|Hp].
    - destruct (Z.eqb_spec gd (Z.of_nat c)); [lia|]. reflexivity.
    - rewrite sumUps_flat_map. unfold loc. rewrite sum_out. apply bsum_ext. intros [i [ge wte]] _.
      destruct (Z.ltb_spec ge 0) as [Hn'|Hp'].
      + destruct (Z.eqb_spec ge (Z.of_nat r)); [lia|]. unfold sumUps. rewrite bsum_nil. now destruct (_ =? _)%Z.
      + unfold sumUps. rewrite bsum_cons, bsum_nil.
        assert (E1 : (c =? Z.to_nat gd) = (gd =? Z.of_nat c)%Z) by (destruct (Nat.eqb_spec c (Z.to_nat gd)), (Z.eqb_spec gd (Z.of_nat c)); lia).
        assert (E2 : (r =? Z.to_nat ge) = (ge =? Z.of_nat r)%Z) by (destruct (Nat.eqb_spec r (Z.to_nat ge)), (Z.eqb_spec ge (Z.of_nat r)); lia).
        rewrite E1, E2. destruct (gd =? Z.of_nat c)%Z, (ge =? Z.of_nat r)%Z; cbn [andb]; ring.
  Qed.

  Lemma contributes_loc ds d F : contributes ds = false -> loc ds d F = zero.
  Proof.
    intros H. apply loc_none. intros g w Hin E. subst g.
    assert (contributes ds = true); [|congruence]. unfold contributes. apply existsb_exists.
    exists (Z.of_nat d, w). split; [exact Hin|]. apply Z.leb_le. cbn. lia.
  Qed.

  Lemma testIndices_sum (S : space K) (f : nat -> K) :
    (forall e, contributes (nth e (sp_dofs S) []) = false -> f e = zero) ->
    bsum (testIndices S) f = bsum (seq 0 (length (sp_dofs S))) f.
  Proof.
    intros H. unfold testIndices. rewrite bsum_map, bsum_filter. unfold enumerate. rewrite combine_seq_nth.
    apply bsum_ext. intros e He. apply in_seq in He. destruct (nth_error (sp_dofs S) e) as [ds|] eqn:E; [|apply nth_error_None in E; lia].
    cbn [snd fst Nat.add]. pose proof (nth_error_nth _ _ [] E) as En. destruct (contributes ds) eqn:Ec; [reflexivity|].
    symmetry. apply H. now rewrite En.
  Qed.
  Lemma testIndices_lt (S : space K) e : In e (testIndices S) -> e < length (sp_dofs S).
  Proof.
    unfold testIndices. intros H. apply in_map_iff in H. destruct H as ([i ds] & <- & Hin). apply filter_In in Hin.
    destruct Hin as [Hin _]. apply in_enumerate in Hin. cbn. apply nth_error_Some. now rewrite Hin.
  Qed.

  Lemma nth_dofs_in (S : space K) e g w : dofsInRange S -> In (g, w) (nth e (sp_dofs S) []) -> (g < Z.of_nat (sp_count S))%Z.
  Proof.
    intros H Hin. destruct (Nat.lt_ge_cases e (length (sp_dofs S))) as [Hl|Hl].
    - eapply H; [|exact Hin]. now apply nth_In.
    - rewrite nth_overflow in Hin by exact Hl. destruct Hin.
  Qed.

  Theorem dense_computes T U A sched :
    dofsInRange T -> dofsInRange U -> Permutation (concat sched) (seq 0 (length (sp_dofs U))) ->
    alwaysComputes (denseStart T U A sched) (sp_count T) (sp_count U) (galerkin T U A).
  Proof.
    intros HT HU HP. unfold denseStart.
    assert (I := @start_inv K (sp_count T) (sp_count U) (trialTask T U A) sched _ HP).
    assert (Hok : forall x, In x (seq 0 (length (sp_dofs U))) -> okOut (sp_count T) (sp_count U) (trialTask T U A x)).
    { intros tr _. unfold trialTask. destruct (contributes _); [|constructor]. apply critical_ok.
      intros r c v Hin. unfold trialUpdates in Hin. apply in_flat_map in Hin. destruct Hin as (te & Hte & Hin).
      apply in_flat_map in Hin. destruct Hin as ([j [gd wtr]] & Hj & Hin). destruct (Z.ltb_spec gd 0); [destruct Hin|].
      apply in_flat_map in Hin. destruct Hin as ([i [ge wte]] & Hi & Hin). destruct (Z.ltb_spec ge 0); [destruct Hin|].
      destruct Hin as [E|[]]. inversion E; subst. apply in_enumerate in Hi, Hj. apply nth_error_In in Hi, Hj.
      pose proof (nth_dofs_in _ _ _ HT Hi). pose proof (nth_dofs_in _ _ _ HU Hj). lia. }
    specialize (I Hok). apply inv_computes in I. revert I. unfold alwaysComputes. intros [B H]. split; [exact B|].
    intros n s Hr. destruct (H n s Hr) as (H1 & H2 & H3). split; [exact H1|]. split; [exact H2|]. intros Hf.
    destruct (H3 Hf) as (H4 & H5 & H6). split; [exact H4|]. split; [exact H5|]. intros r c Hrr Hc. rewrite H6 by assumption.
    rewrite galerkin_inner. apply bsum_ext. intros tr _. unfold trialTask.
    destruct (contributes (nth tr (sp_dofs U) [])) eqn:Ec.
    - rewrite critical_pend, trialUpdates_sum. apply testIndices_sum. intros te Ete. unfold inner.
      rewrite (@loc_ext _ _ _ (fun _ _ => zero)); [unfold loc; apply bsum_zero; intros [? [? ?]] _; now destruct (_ =? _)%Z|].
      intros. now apply contributes_loc.
    - unfold pend. rewrite bsum_nil. symmetry. apply bsum_zero. intros te _. unfold inner. now apply contributes_loc.
  Qed.

  (** ---- blocks ---- *)
  Lemma clip_loc (st en : Z) ds (k : nat) (F : nat -> K -> K) : (0 <= st)%Z -> (st + Z.of_nat k < en)%Z ->
    bsum (enumerate (clipDofs st en ds)) (fun x => let '(i, (g, w)) := x in
       if (g <? 0)%Z then zero else if k =? Z.to_nat (g - st) then F i w else zero)
    = loc ds (Z.to_nat st + k) F.
  Proof.
    intros H0 H1. unfold loc, enumerate. rewrite !combine_seq_nth. unfold clipDofs. rewrite map_length. apply bsum_ext.
    intros i _. rewrite nth_error_map. destruct (nth_error ds i) as [[g w]|]; [|reflexivity]. cbn [option_map fst snd].
    destruct (Z.ltb_spec g st) as [Ha|Ha]; cbn [orb].
    - cbn [Z.ltb Z.compare]. destruct (Z.eqb_spec g (Z.of_nat (Z.to_nat st + k))); [lia|reflexivity].
    - destruct (Z.leb_spec en g) as [Hb|Hb]; cbn [orb].
      + cbn [Z.ltb Z.compare]. destruct (Z.eqb_spec g (Z.of_nat (Z.to_nat st + k))); [lia|reflexivity].
      + destruct (Z.ltb_spec g 0); [lia|]. destruct (Nat.eqb_spec k (Z.to_nat (g - st))), (Z.eqb_spec g (Z.of_nat (Z.to_nat st + k))); try reflexivity; lia.
  Qed.

  Lemma blockUpdates_sum T U A r0 r1 c0 c1 tests tr (r c : nat) :
    (0 <= r0)%Z -> (0 <= c0)%Z -> (r0 + Z.of_nat r < r1)%Z -> (c0 + Z.of_nat c < c1)%Z ->
    sumUps _ (blockUpdates T U A r0 r1 c0 c1 tests tr) r c =
    bsum tests (fun te => inner T U A te tr (Z.to_nat r0 + r) (Z.to_nat c0 + c)).
  Proof.
    intros Hr0 Hc0 Hr Hc. unfold blockUpdates. rewrite sumUps_flat_map. apply bsum_ext. intros te _. rewrite sumUps_flat_map.
    unfold inner. rewrite <- (@clip_loc c0 c1) by assumption. apply bsum_ext. intros [j [gd wtr]] _.
    destruct (Z.ltb_spec gd 0) as [Hn|Hp]; [reflexivity|].
    rewrite sumUps_flat_map. rewrite <- (@clip_loc r0 r1) by assumption. rewrite sum_out. apply bsum_ext. intros [i [ge wte]] _.
    destruct (Z.ltb_spec ge 0) as [Hn'|Hp'].
    - unfold sumUps. rewrite bsum_nil. now destruct (_ =? _).
    - unfold sumUps. rewrite bsum_cons, bsum_nil. destruct (r =? _), (c =? _); cbn [andb]; ring.
  Qed.

  Lemma collect_spec A B (f : A -> option (list B)) l : (forall a, In a l -> f a <> None) ->
    exists r, collect f l = Some r /\ forall b, In b r <-> exists a x, In a l /\ f a = Some x /\ In b x.
  Proof.
    induction l as [|a l IH]; intros H; cbn [collect].
    - exists []. split; [reflexivity|]. intros b. split; [intros []|]. intros (a & x & [] & _).
    - destruct IH as (r & E & Hr). { intros; apply H; now right. }
      destruct (f a) as [x|] eqn:Ea; [|exfalso; apply (H a); [now left|exact Ea]]. rewrite E. exists (x ++ r). split; [reflexivity|].
      intros b. rewrite in_app_iff, Hr. split.
      + intros [Hb|(a' & x' & H1 & H2 & H3)]; [exists a, x|exists a', x']; auto with datatypes.
      + intros (a' & x' & [<-|H1] & H2 & H3); [left; congruence|right; exists a', x'; auto].
  Qed.
  Lemma uniq_fold (l : list nat) : forall acc, NoDup acc ->
    let r := fold_left (fun acc e => if existsb (Nat.eqb e) acc then acc else acc ++ [e]) l acc in
    NoDup r /\ forall x, In x r <-> In x acc \/ In x l.
  Proof.
    induction l as [|e l IH]; intros acc Hnd; cbn zeta; cbn [fold_left].
    - split; [exact Hnd|]. intros x. cbn [In]. tauto.
    - destruct (existsb (Nat.eqb e) acc) eqn:Ex.
      + destruct (IH acc Hnd) as [H1 H2]. split; [exact H1|]. intros x. rewrite H2. cbn [In].
        apply existsb_exists in Ex. destruct Ex as (y & Hy & Ey). apply Nat.eqb_eq in Ey. subst y. intuition congruence.
      + assert (Hn : ~ In e acc).
        { intros Hi. assert (existsb (Nat.eqb e) acc = true); [|congruence]. apply existsb_exists. exists e. split; [exact Hi|apply Nat.eqb_refl]. }
        destruct (IH (acc ++ [e])) as [H1 H2].
        { apply NoDup_app; [exact Hnd|repeat constructor; intros []|]. intros x Hx [<-|[]]. contradiction. }
        split; [exact H1|]. intros x. rewrite H2, in_app_iff. cbn [In]. intuition.
  Qed.

  Lemma gather_ok (S : space K) st en : g2lInverse S -> (0 <= st)%Z -> (en <= Z.of_nat (sp_count S))%Z ->
    exists l, gatherElements S st en = Some l /\ NoDup l /\
      forall e, In e l <-> exists ds i d w, nth_error (sp_dofs S) e = Some ds /\ nth_error ds i = Some (d, w) /\ (st <= d < en)%Z.
  Proof.
    intros HS H0 H1. unfold gatherElements.
    set (ks := map _ _).
    assert (Hks : forall d, In d ks <-> (st <= Z.of_nat d < en)%Z).
    { intros d. unfold ks. rewrite in_map_iff. split.
      - intros (k & <- & Hk). apply in_seq in Hk. lia.
      - intros Hd. exists (d - Z.to_nat st). split; [lia|]. apply in_seq. lia. }
    destruct (@collect_spec _ _ (sp_g2l S) ks) as (r & -> & Hr).
    { intros d Hd. apply Hks in Hd. destruct (HS d) as (l & -> & _); [lia|discriminate]. }
    destruct (@uniq_fold (map (fun x => fst (fst x)) r) [] (NoDup_nil _)) as [N M]. eexists. split; [reflexivity|]. split; [exact N|].
    intros e. rewrite M. cbn [In]. rewrite in_map_iff. split.
    - intros [[]|([[e' i] w] & <- & Hin)]. apply Hr in Hin. destruct Hin as (d & x & Hd & Ex & Hin). apply Hks in Hd.
      destruct (HS d) as (l & El & _ & Hl); [lia|]. rewrite El in Ex. inversion Ex; subst x. apply Hl in Hin.
      destruct Hin as (ds & E1 & E2). exists ds, i, (Z.of_nat d), w. auto.
    - intros (ds & i & d & w & E1 & E2 & Hd). right. exists (e, i, w). split; [reflexivity|]. apply Hr.
      destruct (HS (Z.to_nat d)) as (l & El & _ & Hl); [lia|]. exists (Z.to_nat d), l. split; [apply Hks; lia|]. split; [exact El|].
      apply Hl. exists ds. rewrite Z2Nat.id by lia. auto.
  Qed.

  (** summing over the gathered elements suffices *)
  Lemma gather_sum (S : space K) st en l (f : nat -> K) (tests : list nat) :
    (forall e, In e l <-> exists ds i d w, nth_error (sp_dofs S) e = Some ds /\ nth_error ds i = Some (d, w) /\ (st <= d < en)%Z) ->
    NoDup l -> Permutation tests l ->
    (forall e, e < length (sp_dofs S) -> ~ In e l -> f e = zero) ->
    bsum tests f = bsum (seq 0 (length (sp_dofs S))) f.
  Proof.
    intros Hl Hnd HP Hz. rewrite (bsum_perm f HP).
    assert (Hlt : forall e, In e l -> e < length (sp_dofs S)).
    { intros e He. apply Hl in He. destruct He as (ds & i & d & w & E & _). apply nth_error_Some. now rewrite E. }
    assert (P : Permutation l (filter (fun e => existsb (Nat.eqb e) l) (seq 0 (length (sp_dofs S))))).
    { apply NoDup_Permutation; [exact Hnd|apply NoDup_filter, seq_NoDup|]. intros x. rewrite filter_In, in_seq, existsb_exists. split.
      - intros Hx. split; [specialize (Hlt x Hx); lia|]. exists x. split; [exact Hx|apply Nat.eqb_refl].
      - intros [_ (y & Hy & E)]. apply Nat.eqb_eq in E. now subst. }
    rewrite (bsum_perm f P), bsum_filter. apply bsum_ext. intros e He. apply in_seq in He.
    destruct (existsb (Nat.eqb e) l) eqn:Ex; [reflexivity|]. symmetry. apply Hz; [lia|]. intros Hi.
    assert (existsb (Nat.eqb e) l = true); [|congruence]. apply existsb_exists. exists e. split; [exact Hi|apply Nat.eqb_refl].
  Qed.
  Lemma not_gathered_loc (S : space K) st en l e (d : nat) F :
    (forall e, In e l <-> exists ds i d w, nth_error (sp_dofs S) e = Some ds /\ nth_error ds i = Some (d, w) /\ (st <= d < en)%Z) ->
    ~ In e l -> (st <= Z.of_nat d < en)%Z -> loc (nth e (sp_dofs S) []) d F = zero.
  Proof.
    intros Hl Hn Hd. apply loc_none. intros g w Hin ->. apply Hn. apply Hl.
    destruct (Nat.lt_ge_cases e (length (sp_dofs S))) as [Hlt|Hge]; [|rewrite nth_overflow in Hin by exact Hge; destruct Hin].
    apply In_nth_error in Hin. destruct Hin as [i Hi]. exists (nth e (sp_dofs S) []), i, (Z.of_nat d), w.
    split; [now apply nth_error_nth'|]. auto.
  Qed.

  Theorem block_computes T U A r0 r1 c0 c1 tl ul tests sched :
    g2lInverse T -> g2lInverse U -> (0 <= r0)%Z -> (0 <= c0)%Z ->
    (r1 <= Z.of_nat (sp_count T))%Z -> (c1 <= Z.of_nat (sp_count U))%Z ->
    gatherElements T r0 r1 = Some tl -> gatherElements U c0 c1 = Some ul ->
    Permutation tests tl -> Permutation (concat sched) ul ->
    alwaysComputes (blockStart T U A r0 r1 c0 c1 tests sched) (Z.to_nat (r1 - r0)) (Z.to_nat (c1 - c0))
      (fun r c => galerkin T U A (Z.to_nat r0 + r) (Z.to_nat c0 + c)).
  Proof.
    intros GT GU Hr0 Hc0 Hr1 Hc1 ET EU PT PU.
    destruct (@gather_ok T r0 r1 GT Hr0 Hr1) as (tl' & E & NT & MT). rewrite ET in E. inversion E; subst tl'; clear E.
    destruct (@gather_ok U c0 c1 GU Hc0 Hc1) as (ul' & E & NU & MU). rewrite EU in E. inversion E; subst ul'; clear E.
    unfold blockStart.
    assert (I := @start_inv K (Z.to_nat (r1 - r0)) (Z.to_nat (c1 - c0)) (fun tr => critical (blockUpdates T U A r0 r1 c0 c1 tests tr)) sched _ PU).
    assert (Hok : forall x, In x ul -> okOut (Z.to_nat (r1 - r0)) (Z.to_nat (c1 - c0)) (critical (blockUpdates T U A r0 r1 c0 c1 tests x))).
    { intros tr _. apply critical_ok.
      intros r c v Hin. unfold blockUpdates in Hin. apply in_flat_map in Hin. destruct Hin as (te & Hte & Hin).
      apply in_flat_map in Hin. destruct Hin as ([j [gd wtr]] & Hj & Hin). destruct (Z.ltb_spec gd 0); [destruct Hin|].
      apply in_flat_map in Hin. destruct Hin as ([i [ge wte]] & Hi & Hin). destruct (Z.ltb_spec ge 0); [destruct Hin|].
      destruct Hin as [E|[]]. inversion E; subst. apply in_enumerate in Hi, Hj. apply nth_error_In in Hi, Hj.
      unfold clipDofs in Hi, Hj. apply in_map_iff in Hi, Hj. destruct Hi as ([gi wi] & Ei & _), Hj as ([gj wj] & Ej & _).
      cbn [fst snd] in *. inversion Ei. inversion Ej. clear Ei Ej E. subst.
      destruct (Z.ltb_spec gi r0); cbn [orb] in *; [lia|]. destruct (Z.leb_spec r1 gi); [lia|].
      destruct (Z.ltb_spec gj c0); cbn [orb] in *; [lia|]. destruct (Z.leb_spec c1 gj); [lia|]. lia. }
    specialize (I Hok). apply inv_computes in I. revert I. unfold alwaysComputes. intros [B H]. split; [exact B|].
    intros n s Hr. destruct (H n s Hr) as (H1 & H2 & H3). split; [exact H1|]. split; [exact H2|]. intros Hf.
    destruct (H3 Hf) as (H4 & H5 & H6). split; [exact H4|]. split; [exact H5|]. intros r c Hrr Hc. rewrite H6 by assumption.
    rewrite galerkin_inner.
    rewrite (bsum_ext ul _ (fun tr => bsum (seq 0 (length (sp_dofs T))) (fun te => inner T U A te tr (Z.to_nat r0 + r) (Z.to_nat c0 + c)))).
    - eapply gather_sum; [exact MU|exact NU|apply Permutation_refl|].
      intros tr _ Hn. apply bsum_zero. intros te _. unfold inner. eapply not_gathered_loc; [exact MU|exact Hn|lia].
    - intros tr _. rewrite critical_pend, blockUpdates_sum by lia.
      eapply gather_sum; [exact MT|exact NT|exact PT|].
      intros te _ Hn. unfold inner.
      rewrite (@loc_ext _ _ _ (fun _ _ => zero)); [unfold loc; apply bsum_zero; intros [? [? ?]] _; now destruct (_ =? _)%Z|].
      intros. eapply not_gathered_loc; [exact MT|exact Hn|lia].
  Qed.

  (** ---- potentials ---- *)
  Lemma bsum_seq_delta n (f : nat -> K) k : k < n -> bsum (seq 0 n) (fun i => if k =? i then f i else zero) = f k.
  Proof.
    intros H. rewrite (@bsum_single K _ Nat.eq_dec (seq 0 n) k); [now rewrite Nat.eqb_refl|apply seq_NoDup|apply in_seq; lia|].
    intros b _ Hb. destruct (Nat.eqb_spec k b); [lia|reflexivity].
  Qed.
  Lemma potentialUpdates_sum U P points comps tr p k c : p < points -> k < comps ->
    sumUps _ (potentialUpdates U P points comps tr) (p * comps + k) c =
    loc (nth tr (sp_dofs U) []) c (fun j w => mul w (P p tr k j)).
  Proof.
    intros Hp Hk. unfold potentialUpdates. rewrite sumUps_flat_map. unfold loc. apply bsum_ext. intros [j [gd w]] _.
    destruct (Z.ltb_spec gd 0) as [Hn|Hg].
    - destruct (Z.eqb_spec gd (Z.of_nat c)); [lia|reflexivity].
    - rewrite sumUps_flat_map.
      assert (E1 : (c =? Z.to_nat gd) = (gd =? Z.of_nat c)%Z) by (destruct (Nat.eqb_spec c (Z.to_nat gd)), (Z.eqb_spec gd (Z.of_nat c)); lia).
      rewrite (bsum_ext (seq 0 points) _ (fun p' => if p =? p' then (if (gd =? Z.of_nat c)%Z then mul w (P p' tr k j) else zero) else zero)).
      + now rewrite bsum_seq_delta.
      + intros p' _. unfold sumUps. rewrite bsum_map. rewrite E1. destruct (Nat.eqb_spec p p') as [->|Hne].
        * rewrite <- (@bsum_seq_delta comps (fun k' => if (gd =? Z.of_nat c)%Z then mul w (P p' tr k' j) else zero) k Hk).
          apply bsum_ext. intros k' _. replace (p' * comps + k =? p' * comps + k') with (k =? k').
          2:{ destruct (Nat.eqb_spec k k'), (Nat.eqb_spec (p' * comps + k) (p' * comps + k')); try reflexivity; lia. }
          destruct (k =? k'), (gd =? Z.of_nat c)%Z; reflexivity.
        * apply bsum_zero. intros k' Hk'. apply in_seq in Hk'.
          destruct (Nat.eqb_spec (p * comps + k) (p' * comps + k')) as [E|]; [|reflexivity]. exfalso.
          assert (p = p'); [|contradiction]. nia.
  Qed.
  Theorem potential_computes U P points comps sched :
    dofsInRange U -> Permutation (concat sched) (seq 0 (length (sp_dofs U))) ->
    alwaysComputes (potentialStart U P points comps sched) (points * comps) (sp_count U)
      (fun r c => potential U P (r / comps) (r mod comps) c).
  Proof.
    intros HU HP. unfold potentialStart.
    assert (I := @start_inv K (points * comps) (sp_count U) (potentialTask U P points comps) sched _ HP).
    assert (Hok : forall x, In x (seq 0 (length (sp_dofs U))) -> okOut (points * comps) (sp_count U) (potentialTask U P points comps x)).
    { intros tr _. unfold potentialTask. destruct (contributes _); [|constructor]. apply critical_ok.
      intros r c v Hin. unfold potentialUpdates in Hin. apply in_flat_map in Hin. destruct Hin as ([j [gd wtr]] & Hj & Hin).
      destruct (Z.ltb_spec gd 0); [destruct Hin|]. apply in_flat_map in Hin. destruct Hin as (p & Hp & Hin). apply in_seq in Hp.
      apply in_map_iff in Hin. destruct Hin as (k & E & Hk). apply in_seq in Hk. inversion E; subst.
      apply in_enumerate in Hj. apply nth_error_In in Hj. pose proof (nth_dofs_in _ _ _ HU Hj). split; [nia|lia]. }
    specialize (I Hok). apply inv_computes in I. revert I. unfold alwaysComputes. intros [B H]. split; [exact B|].
    intros n s Hr. destruct (H n s Hr) as (H1 & H2 & H3). split; [exact H1|]. split; [exact H2|]. intros Hf.
    destruct (H3 Hf) as (H4 & H5 & H6). split; [exact H4|]. split; [exact H5|]. intros r c Hrr Hc. rewrite H6 by assumption.
    assert (Hcomps : comps <> 0) by (intros ->; lia).
    unfold potential. rewrite support_sum. apply bsum_ext. intros tr _. unfold potentialTask.
    pose proof (Nat.div_mod r comps Hcomps) as Hd. pose proof (Nat.mod_upper_bound r comps Hcomps) as Hm.
    assert (Hq : r / comps < points) by (apply Nat.div_lt_upper_bound; lia).
    destruct (contributes (nth tr (sp_dofs U) [])) eqn:Ec.
    - rewrite critical_pend. rewrite Hd at 1. rewrite (Nat.mul_comm comps). rewrite potentialUpdates_sum by assumption. reflexivity.
    - unfold pend. rewrite bsum_nil. symmetry. now apply contributes_loc.
  Qed.
End Asm.
