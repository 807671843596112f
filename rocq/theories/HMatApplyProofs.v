(** Proofs about HMatrix (C06-C10, C13). *)
From Verif Require Import Base HMatTreeModel HMatTreeSpec HMatTreeProofs HMatBlockProofs
  HMatApplyModel HMatApplySpec.
Set Implicit Arguments.

Section Proofs.
  Variable K : star_ring.
  Add Ring Kr : (sr_ring K).
  Local Open Scope sr_scope.
  Variable isz : K -> bool.
  Hypothesis isz_ok : forall x, isz x = true <-> x = 0.

  Notation mat := (mat K).

  (** ---- permutation loops ---- *)
  Lemma permute_loop_ok (p : list nat) (M : mat) : forall idx f,
    NoDup idx -> (forall i, In i idx -> exists q, nth_error p i = Some q) ->
    (forall i i' q, In i idx -> In i' idx -> nth_error p i = Some q -> nth_error p i' = Some q -> i = i') ->
    exists f', permute_loop p M idx f = Some f' /\
      (forall i q, In i idx -> nth_error p i = Some q -> forall j, f' q j = M i j) /\
      (forall q, (forall i, In i idx -> nth_error p i <> Some q) -> forall j, f' q j = f q j).
  Proof.
    induction idx as [|i idx IH]; intros f Hnd Hex Hinj.
    - exists f. split; [reflexivity|]. split; [intros i q []|auto].
    - inversion Hnd as [|? ? Hni Hnd']; subst. cbn [permute_loop].
      destruct (Hex i (or_introl eq_refl)) as [q Eq]. rewrite Eq.
      destruct (IH (fset f q (fun j => M i j)) Hnd') as (f' & E & H1 & H2).
      { intros; apply Hex; now right. }
      { intros i1 i2 q' A B. apply Hinj; now right. }
      exists f'. split; [exact E|]. split.
      + intros i1 q1 [<-|Hin] E1 j.
        * rewrite Eq in E1. inversion E1; subst q1. rewrite H2.
          { unfold fset. rewrite Nat.eqb_refl. reflexivity. }
          intros i2 Hi2 E2. assert (i = i2).
          { eapply Hinj; eauto with datatypes. }
          subst; contradiction.
        * apply H1; auto.
      + intros q' Hq' j. rewrite H2.
        * unfold fset. destruct (Nat.eqb_spec q' q); [|reflexivity].
          subst. exfalso. apply (Hq' i); auto with datatypes.
        * intros i1 Hi1. apply Hq'. now right.
  Qed.

  Lemma perm_ok_bound p n i h : perm_ok p n -> nth_error (o2h p) i = Some h -> (i < n)%nat /\ (h < n)%nat.
  Proof.
    intros (L1 & L2 & A & B) E. assert (i < n)%nat by (rewrite <- L1; apply nth_error_Some; congruence).
    split; auto. destruct (A i H) as (h' & Hh & E1 & _). congruence.
  Qed.

  Lemma to_hmat_ok p n (M junk : mat) : perm_ok p n ->
    exists f, permuteMatToHMatDofs p n M junk = Some f /\
      forall i h, nth_error (o2h p) i = Some h -> forall j, f h j = M i j.
  Proof.
    intros Hp. pose proof Hp as (L1 & L2 & A & B). unfold permuteMatToHMatDofs.
    destruct (@permute_loop_ok (o2h p) M (seq 0 n) junk) as (f & E & H1 & _).
    - apply seq_NoDup.
    - intros i Hi. apply in_seq in Hi. destruct (A i) as (h & _ & Eh & _); [lia|eauto].
    - intros i i' q Hi Hi' E1 E2. apply in_seq in Hi, Hi'.
      destruct (A i) as (h & _ & Eh & Bh); [lia|]. destruct (A i') as (h' & _ & Eh' & Bh'); [lia|].
      congruence.
    - exists f. split; [exact E|]. intros i h Eh j. apply H1; auto.
      apply in_seq. destruct (perm_ok_bound _ Hp Eh). lia.
  Qed.

  Lemma to_orig_ok p n (M junk : mat) : perm_ok p n ->
    exists f, permuteMatToOriginalDofs p n M junk = Some f /\
      forall i h, nth_error (o2h p) i = Some h -> forall j, f i j = M h j.
  Proof.
    intros Hp. pose proof Hp as (L1 & L2 & A & B). unfold permuteMatToOriginalDofs.
    destruct (@permute_loop_ok (h2o p) M (seq 0 n) junk) as (f & E & H1 & _).
    - apply seq_NoDup.
    - intros i Hi. apply in_seq in Hi. destruct (B i) as (h & _ & Eh & _); [lia|eauto].
    - intros i i' q Hi Hi' E1 E2. apply in_seq in Hi, Hi'.
      destruct (B i) as (h & _ & Eh & Bh); [lia|]. destruct (B i') as (h' & _ & Eh' & Bh'); [lia|].
      congruence.
    - exists f. split; [exact E|]. intros i h Eh j. destruct (perm_ok_bound _ Hp Eh) as [Hi Hh].
      apply H1; [apply in_seq; lia|]. destruct (A i Hi) as (h' & _ & E1 & E2). congruence.
  Qed.

  (** C08 *)
  Lemma permute_roundtrip p n (M junk junk' : mat) : perm_ok p n ->
    exists f g, permuteMatToHMatDofs p n M junk = Some f /\
      (forall i h, nth_error (o2h p) i = Some h -> forall j, f h j = M i j) /\
      permuteMatToOriginalDofs p n f junk' = Some g /\
      (forall i j, (i < n)%nat -> g i j = M i j).
  Proof.
    intros Hp. destruct (to_hmat_ok M junk Hp) as (f & E1 & H1).
    destruct (to_orig_ok f junk' Hp) as (g & E2 & H2). exists f, g. repeat split; auto.
    intros i j Hi. pose proof Hp as (_ & _ & A & _). destruct (A i Hi) as (h & _ & Eh & _).
    rewrite (H2 i h Eh), (H1 i h Eh). reflexivity.
  Qed.
  Lemma permute_roundtrip' p n (M junk junk' : mat) : perm_ok p n ->
    exists f g, permuteMatToOriginalDofs p n M junk = Some f /\
      permuteMatToHMatDofs p n f junk' = Some g /\
      (forall h j, (h < n)%nat -> g h j = M h j).
  Proof.
    intros Hp. destruct (to_orig_ok M junk Hp) as (f & E1 & H1).
    destruct (to_hmat_ok f junk' Hp) as (g & E2 & H2). exists f, g. repeat split; auto.
    intros h j Hh. pose proof Hp as (_ & _ & _ & B). destruct (B h Hh) as (i & _ & _ & Ei).
    rewrite (H2 i h Ei), (H1 i h Ei). reflexivity.
  Qed.

  (** ---- one leaf ---- *)
  Definition inner (b : leafblk) (t : tmode) : nat := if isT t then r1 b - r0 b else c1 b - c0 b.
  Definition opentry (t : tmode) (d : hdata K) (i k : nat) : K := op t (hentry d) i k.

  Lemma one_ne_zero_or_trivial : isz (1 : K) = true -> forall x : K, x = 0.
  Proof. intros H x. apply isz_ok in H. transitivity (x * 1); [ring|]. rewrite H. ring. Qed.

  Lemma hd_apply_entry d b t (X : mat) i j :
    hd_shape d (r1 b - r0 b) (c1 b - c0 b) ->
    hd_apply isz d X (@mzero K) t 1 1 i j
    = bsum (seq 0 (inner b t)) (fun k => opentry t d i k * X k j).
  Proof.
    intros Hs. destruct (isz (1:K)) eqn:E1.
    { pose proof (one_ne_zero_or_trivial E1) as Z. rewrite (Z (hd_apply _ _ _ _ _ _ _ _ _)).
      symmetry. apply Z. }
    unfold hd_apply, inner. rewrite E1. destruct d as [r c A|ar ac A br bc B]; cbn [hd_shape] in Hs.
    - destruct Hs as [-> ->].
      destruct t; cbn [isT]; unfold madd, mmul, mscale, mzero, opentry, op, hentry, mtrans, mconj;
        match goal with |- ?a + 1 * 0 = _ => transitivity a; [ring|] end;
        apply bsum_ext; intros k _; ring.
    - cbn [orb]. destruct (Nat.eqb_spec ac 0) as [->|Hne].
      + unfold mscale, mzero. rewrite bsum_zero; [ring|]. intros k _.
        unfold opentry, op, hentry. destruct t; cbn [seq]; rewrite ?bsum_nil, ?conj_zero; ring.
      + destruct Hs as [?|(-> & -> & ->)]; [lia|].
        destruct t; cbn [isT]; unfold madd, mmul, mscale, mzero, opentry, op, hentry, mtrans, mconj;
          match goal with |- ?a + 1 * 0 = _ => transitivity a; [ring|] end.
        * erewrite bsum_ext by (intros k _; rewrite <- bsum_mul_l; reflexivity).
          rewrite bsum_swap. apply bsum_ext. intros k _. rewrite <- bsum_mul_r. apply bsum_ext. intros; ring.
        * erewrite bsum_ext by (intros k _; rewrite <- bsum_mul_l; reflexivity).
          rewrite bsum_swap. apply bsum_ext. intros k _. rewrite <- bsum_mul_r. apply bsum_ext. intros; ring.
        * erewrite bsum_ext by (intros k _; rewrite <- bsum_mul_l; reflexivity).
          rewrite bsum_swap. apply bsum_ext. intros k _. rewrite bsum_conj, <- bsum_mul_r. apply bsum_ext.
          intros; rewrite conj_mul; ring.
        * erewrite bsum_ext by (intros k _; rewrite <- bsum_mul_l; reflexivity).
          rewrite bsum_swap. apply bsum_ext. intros k _. rewrite bsum_conj, <- bsum_mul_r. apply bsum_ext.
          intros; rewrite conj_mul; ring.
  Qed.

  (** ---- accumulation of critical sections ---- *)
  Variable leafs : list leafblk.
  Variable data : nat -> option (hdata K).

  Definition contrib (t : tmode) (xP : mat) (i j : nat) (task : nat * nat) : K :=
    match leaf_result isz leafs data t xP (fst task) with
    | Some (b, res) => if (snd task =? i)%nat then res (i - out_lo b t)%nat j else 0
    | None => 0
    end.

  Lemma accumulate t xP : forall sched (y : mat),
    (forall task, In task sched -> exists br, leaf_result isz leafs data t xP (fst task) = Some br) ->
    exists y', fold_left (add_row isz leafs data t xP) sched (Some y) = Some y' /\
      forall i j, y' i j = y i j + bsum sched (contrib t xP i j).
  Proof.
    induction sched as [|[id i0] sched IH]; intros y Hex.
    - exists y. split; [reflexivity|]. intros; rewrite bsum_nil; ring.
    - destruct (Hex (id, i0) (or_introl eq_refl)) as [[b res] E]. cbn [fst] in E.
      cbn [fold_left]. unfold add_row at 2. cbn [fst snd]. rewrite E.
      destruct (IH (fset y i0 (fun j => y i0 j + res (i0 - out_lo b t)%nat j))) as (y' & E' & H).
      { intros; apply Hex; now right. }
      exists y'. split; [exact E'|]. intros i j. rewrite H, bsum_cons.
      unfold contrib at 2. cbn [fst snd]. rewrite E. unfold fset.
      destruct (Nat.eqb_spec i i0) as [->|Hne].
      + rewrite Nat.eqb_refl. ring.
      + destruct (Nat.eqb_spec i0 i); [congruence|]. ring.
  Qed.

  Definition out_in (b : leafblk) (t : tmode) (i : nat) : bool := (out_lo b t <=? i)%nat && (i <? out_hi b t)%nat.

  Lemma bsum_tasks t xP i j my :
    bsum (tasks leafs t my) (contrib t xP i j) =
    bsum my (fun id => match leaf_result isz leafs data t xP id with
                       | Some (b, res) => if out_in b t i then res (i - out_lo b t)%nat j else 0
                       | None => 0 end).
  Proof.
    unfold tasks. rewrite bsum_flat_map. apply bsum_ext. intros id _.
    unfold leaf_result. destruct (nth_error leafs id) as [b|] eqn:Eb; [|reflexivity].
    rewrite bsum_map. unfold contrib, leaf_result. cbn [fst snd]. rewrite Eb.
    destruct (data id) as [d|]; [|apply bsum_zero; reflexivity].
    unfold out_in. destruct (Nat.leb_spec (out_lo b t) i) as [H1|H1]; cbn [andb].
    - destruct (Nat.ltb_spec i (out_hi b t)) as [H2|H2].
      + rewrite (@bsum_single K _ Nat.eq_dec _ i).
        * rewrite Nat.eqb_refl. reflexivity.
        * apply seq_NoDup.
        * apply in_seq. lia.
        * intros q _ Hq. destruct (Nat.eqb_spec q i); [congruence|reflexivity].
      + apply bsum_zero. intros q Hq. apply in_seq in Hq. destruct (Nat.eqb_spec q i); [lia|reflexivity].
    - apply bsum_zero. intros q Hq. apply in_seq in Hq. destruct (Nat.eqb_spec q i); [lia|reflexivity].
  Qed.
End Proofs.

(** ---- round-robin distribution ---- *)
Lemma deal_leafs_spec : forall fuel index nproc n, 0 < nproc -> n <= index + fuel * nproc ->
  forall x, In x (deal_leafs fuel index nproc n) <-> x < n /\ exists q, x = index + q * nproc.
Proof.
  induction fuel as [|k IH]; intros index nproc n Hp Hf x; cbn [deal_leafs].
  - split; [intros []|]. intros (Hx & q & ->). nia.
  - destruct (Nat.ltb_spec index n) as [Hlt|Hge].
    + cbn [In]. rewrite IH by nia. split.
      * intros [<-|(Hx & q & ->)].
        { split; [exact Hlt|]. exists 0. lia. }
        { split; [exact Hx|]. exists (S q). lia. }
      * intros (Hx & q & ->). destruct q as [|q]; [left; lia|]. right. split; [exact Hx|]. exists q. lia.
    + split; [intros []|]. intros (Hx & q & ->). nia.
Qed.

Lemma deal_leafs_ge : forall fuel index nproc n x, In x (deal_leafs fuel index nproc n) -> index <= x.
Proof.
  induction fuel as [|k IH]; intros index nproc n x; cbn [deal_leafs]; [intros []|].
  destruct (index <? n); [|intros []]. intros [<-|H]; [lia|]. apply IH in H. lia.
Qed.

Lemma deal_leafs_NoDup : forall fuel index nproc n, 0 < nproc -> NoDup (deal_leafs fuel index nproc n).
Proof.
  induction fuel as [|k IH]; intros index nproc n Hp; cbn [deal_leafs]; [constructor|].
  destruct (index <? n); [|constructor]. constructor; [|auto].
  intros H. apply deal_leafs_ge in H. lia.
Qed.

Lemma my_leafs_spec rank nproc n x : 0 < nproc -> rank < nproc ->
  In x (my_leafs rank nproc n) <-> x < n /\ x mod nproc = rank.
Proof.
  intros Hp Hr. unfold my_leafs. rewrite deal_leafs_spec by nia. split.
  - intros (Hx & q & ->). split; [exact Hx|]. rewrite Nat.mod_add by lia. apply Nat.mod_small. exact Hr.
  - intros (Hx & Hm). split; [exact Hx|]. exists (x / nproc). pose proof (Nat.div_mod x nproc). lia.
Qed.

Lemma my_leafs_partition nproc n : 0 < nproc ->
  Permutation (flat_map (fun r => my_leafs r nproc n) (seq 0 nproc)) (seq 0 n).
Proof.
  intros Hp. apply NoDup_Permutation.
  - apply NoDup_concat_map.
    + apply seq_NoDup.
    + intros r _. apply deal_leafs_NoDup. exact Hp.
    + intros r r' x Hr Hr' Hx Hx'. apply in_seq in Hr, Hr'.
      apply my_leafs_spec in Hx; [|lia|lia]. apply my_leafs_spec in Hx'; [|lia|lia]. lia.
  - apply seq_NoDup.
  - intros x. rewrite in_flat_map, in_seq. split.
    + intros (r & Hr & Hx). apply in_seq in Hr. apply my_leafs_spec in Hx; lia.
    + intros Hx. exists (x mod nproc). pose proof (Nat.mod_upper_bound x nproc).
      rewrite in_seq. split; [lia|]. apply my_leafs_spec; lia.
Qed.

Section Main.
  Variable K : star_ring.
  Add Ring Kr2 : (sr_ring K).
  Local Open Scope sr_scope.
  Variable isz : K -> bool.
  Hypothesis isz_ok : forall x, isz x = true <-> x = 0.
  Notation mat := (mat K).

  Variable leafs : list leafblk.
  Variables nr nc : nat.
  Hypothesis Htile : tiling leafs nr nc.
  Variables pr pc : dofperm.
  Hypothesis Hpr : perm_ok pr nr.
  Hypothesis Hpc : perm_ok pc nc.
  Variable blk : nat -> hdata K.
  Hypothesis Hshape : forall id b, nth_error leafs id = Some b ->
    hd_shape (blk id) (r1 b - r0 b) (c1 b - c0 b).
  Variable M : mat.
  Hypothesis HM : represents leafs blk pr pc nr nc M.

  Variable t : tmode.
  Let pin := if isT t then pr else pc.
  Let pout := if isT t then pc else pr.
  Let nin := if isT t then nr else nc.
  Let nout := if isT t then nc else nr.

  Lemma Hpin : perm_ok pin nin. Proof. unfold pin, nin. destruct (isT t); assumption. Qed.
  Lemma Hpout : perm_ok pout nout. Proof. unfold pout, nout. destruct (isT t); assumption. Qed.

  Definition in_hi (b : leafblk) := if isT t then r1 b else c1 b.
  Definition in_in (b : leafblk) (g : nat) : bool := ((in_lo b t <=? g) && (g <? in_hi b))%nat.

  Lemma bsum_nth_error A (l : list A) (f : A -> K) :
    bsum (seq 0 (length l)) (fun id => match nth_error l id with Some b => f b | None => 0 end) = bsum l f.
  Proof.
    induction l as [|a l IH]; [reflexivity|].
    cbn [length seq]. rewrite !bsum_cons. cbn [nth_error]. f_equal.
    rewrite <- IH, <- seq_shift, bsum_map. reflexivity.
  Qed.

  Lemma bsum_unique A (l : list A) (p : A -> bool) (v : K) :
    length (filter p l) = 1%nat -> bsum l (fun b => if p b then v else 0) = v.
  Proof.
    intros H. rewrite <- (bsum_filter l p (fun _ => v)).
    destruct (filter p l) as [|x [|]]; cbn in H; try discriminate.
    rewrite bsum_cons, bsum_nil. ring.
  Qed.

  Lemma cov_unique h g : (h < nout)%nat -> (g < nin)%nat ->
    length (filter (fun b => (out_in b t h && in_in b g)%bool) leafs) = 1%nat.
  Proof.
    intros Hh Hg. unfold nout, nin in *. unfold out_in, in_in, out_lo, out_hi, in_lo, in_hi.
    destruct Htile as [H1 _]. destruct (isT t).
    - rewrite <- (H1 g h Hg Hh). f_equal. apply filter_ext. intros b. unfold blk_covers.
      apply andb_comm.
    - rewrite <- (H1 h g Hh Hg). reflexivity.
  Qed.

  Lemma in_hi_bound b : In b leafs -> (in_hi b <= nin)%nat.
  Proof.
    intros Hb. destruct Htile as [_ H2]. destruct (H2 b Hb). unfold in_hi, nin.
    destruct (isT t); assumption.
  Qed.

  Lemma opentry_M id b i q h g :
    nth_error leafs id = Some b ->
    nth_error (o2h pout) i = Some h -> nth_error (o2h pin) q = Some g ->
    out_in b t h = true -> in_in b g = true ->
    opentry t (blk id) (h - out_lo b t) (g - in_lo b t) = op t M i q.
  Proof.
    intros Eb Ei Eq Ho Hi. unfold out_in, in_in in *. apply andb_prop in Ho, Hi.
    destruct Ho as [O1 O2], Hi as [I1 I2].
    apply Nat.leb_le in O1, I1. apply Nat.ltb_lt in O2, I2.
    destruct (perm_ok_bound _ Hpout Ei) as [Bi _]. destruct (perm_ok_bound _ Hpin Eq) as [Bq _].
    unfold opentry, op, pin, pout, nin, nout, out_lo, out_hi, in_lo, in_hi in *.
    destruct t; cbn [isT] in *; try f_equal; symmetry; eapply HM; eauto.
  Qed.

  Lemma seq_perm_map p n : perm_ok p n ->
    Permutation (map (fun q => nth q (o2h p) 0%nat) (seq 0 n)) (seq 0 n).
  Proof.
    intros (L1 & L2 & A & B). apply NoDup_Permutation.
    - assert (E : map (fun q => nth q (o2h p) 0%nat) (seq 0 n) = o2h p).
      { rewrite <- L1. apply map_nth_seq. }
      rewrite E. apply NoDup_nth_error. intros i j Hi Hij. rewrite L1 in Hi.
      destruct (A i Hi) as (h & Hh & E1 & E2). rewrite E1 in Hij. symmetry in Hij.
      assert (Hj : (j < n)%nat) by (rewrite <- L1; apply nth_error_Some; congruence).
      destruct (A j Hj) as (h' & Hh' & E1' & E2'). congruence.
    - apply seq_NoDup.
    - intros x. rewrite in_map_iff, in_seq. split.
      + intros (q & <- & Hq). apply in_seq in Hq. destruct (A q) as (h & Hh & E1 & _); [lia|].
        rewrite (nth_error_nth _ _ _ E1). lia.
      + intros Hx. destruct (B x) as (i & Hi & E1 & E2); [lia|]. exists i.
        rewrite (nth_error_nth _ _ _ E2), in_seq. split; [reflexivity|lia].
  Qed.

  Lemma nth_error_nth0 (l : list nat) q : (q < length l)%nat -> nth_error l q = Some (nth q l 0%nat).
  Proof. intros H. apply nth_error_nth'. exact H. Qed.

  (** all leaves together compute the product *)
  Lemma all_leaves (X xp : mat) i h j :
    (forall q g, nth_error (o2h pin) q = Some g -> forall j, xp g j = X q j) ->
    nth_error (o2h pout) i = Some h ->
    bsum (seq 0 (length leafs)) (fun id => match nth_error leafs id with
       | Some b => if out_in b t h then
                     bsum (seq 0 (inner b t)) (fun k => opentry t (blk id) (h - out_lo b t) k * xp (in_lo b t + k)%nat j)
                   else 0
       | None => 0 end)
    = bsum (seq 0 nin) (fun q => op t M i q * X q j).
  Proof.
    intros Hx Ei. destruct (perm_ok_bound _ Hpout Ei) as [Bi Bh].
    pose proof Hpin as (Lin & _ & Ain & _).
    rewrite (bsum_ext _ _ (fun id => bsum (seq 0 nin) (fun q =>
        match nth_error leafs id with
        | Some b => if (out_in b t h && in_in b (nth q (o2h pin) 0%nat))%bool then op t M i q * X q j else 0
        | None => 0 end))).
    2:{ intros id _. destruct (nth_error leafs id) as [b|] eqn:Eb.
        2:{ symmetry. apply bsum_zero. reflexivity. }
        assert (Hb : In b leafs) by (eapply nth_error_In; eauto).
        pose proof (in_hi_bound _ Hb) as Hbound.
        destruct (out_in b t h) eqn:Eo; cbn [andb].
        2:{ symmetry. apply bsum_zero. reflexivity. }
        (* the in-range part of the sum over H indices *)
        transitivity (bsum (seq 0 nin) (fun g => if in_in b g then
            opentry t (blk id) (h - out_lo b t) (g - in_lo b t) * xp g j else 0)).
        - rewrite <- (bsum_filter (seq 0 nin) (in_in b)).
          assert (Ef : Permutation (filter (in_in b) (seq 0 nin)) (map (fun k => (in_lo b t + k)%nat) (seq 0 (inner b t)))).
          { apply NoDup_Permutation.
            - apply NoDup_filter, seq_NoDup.
            - apply FinFun.Injective_map_NoDup; [intros x y; lia|apply seq_NoDup].
            - intros x. rewrite filter_In, in_seq, in_map_iff. unfold in_in, inner, in_hi, in_lo in *.
              split.
              + intros [H1 H2]. apply andb_prop in H2. destruct H2 as [H2 H3].
                apply Nat.leb_le in H2. apply Nat.ltb_lt in H3.
                exists (x - (if isT t then r0 b else c0 b))%nat. rewrite in_seq. destruct (isT t); lia.
              + intros (k & <- & Hk). apply in_seq in Hk.
                assert (A1 : (k < (if isT t then r1 b else c1 b) - (if isT t then r0 b else c0 b))%nat)
                  by (destruct (isT t); apply Hk).
                clear Hk. split; [split; [apply Nat.le_0_l|cbn [Nat.add]; eapply Nat.lt_le_trans; [|exact Hbound]; lia]|].
                apply andb_true_intro; split; [apply Nat.leb_le|apply Nat.ltb_lt]; lia. }
          rewrite (bsum_perm _ Ef), bsum_map. apply bsum_ext. intros k _.
          replace (in_lo b t + k - in_lo b t)%nat with k by lia. reflexivity.
        - rewrite <- (bsum_perm _ (seq_perm_map Hpin)), bsum_map. apply bsum_ext.
          intros q Hq. apply in_seq in Hq.
          destruct (in_in b (nth q (o2h pin) 0%nat)) eqn:Ein; [|reflexivity].
          assert (Eq : nth_error (o2h pin) q = Some (nth q (o2h pin) 0%nat)) by (apply nth_error_nth0; lia).
          rewrite (Hx q _ Eq). erewrite opentry_M; eauto. }
    rewrite bsum_swap. apply bsum_ext. intros q Hq. apply in_seq in Hq.
    destruct (Ain q) as (g & Hg & Eg & _); [lia|]. rewrite (nth_error_nth _ _ 0%nat Eg).
    rewrite (bsum_nth_error leafs (fun b => if (out_in b t h && in_in b g)%bool then op t M i q * X q j else 0)).
    apply bsum_unique. apply cov_unique; assumption.
  Qed.

  Variables (alpha beta : K) (X : mat).

  Definition base (rank : nat) (Y : mat) : mat :=
    if (isz beta || negb (rank =? 0)%nat)%bool then mzero K else fun i j => Y i j * beta.

  Lemma apply_local_ok rank st sched junk (Y : mat) :
    (forall id, In id (hm_my st) -> (id < length leafs)%nat /\ hm_data st id = Some (blk id)) ->
    Permutation sched (tasks leafs t (hm_my st)) ->
    exists y, apply_local isz leafs pr pc nr nc rank st sched junk X Y t alpha beta = Some y /\
      exists xp, (forall q g, nth_error (o2h pin) q = Some g -> forall j, xp g j = X q j) /\
      forall i h j, nth_error (o2h pout) i = Some h ->
        y i j = base rank Y i j +
          alpha * bsum (hm_my st) (fun id => match nth_error leafs id with
            | Some b => if out_in b t h then
                     bsum (seq 0 (inner b t)) (fun k => opentry t (blk id) (h - out_lo b t) k * xp (in_lo b t + k)%nat j)
                   else 0
            | None => 0 end).
  Proof.
    intros Hst Hperm. unfold apply_local. fold pin pout nin nout. fold (base rank Y).
    destruct (to_hmat_ok X junk Hpin) as (xp & E1 & H1).
    destruct (to_hmat_ok (base rank Y) junk Hpout) as (yp & E2 & H2).
    rewrite E1, E2.
    assert (Hres : forall id, In id (hm_my st) -> exists b, nth_error leafs id = Some b /\
      leaf_result isz leafs (hm_data st) t (mscale alpha xp) id =
        Some (b, hd_apply isz (blk id) (fun k j => mscale alpha xp (in_lo b t + k)%nat j) (mzero K) t 1 1)).
    { intros id Hid. destruct (Hst id Hid) as [Hlt Ed].
      destruct (nth_error leafs id) as [b|] eqn:Eb.
      2:{ apply nth_error_None in Eb. lia. }
      exists b. split; [reflexivity|]. unfold leaf_result. rewrite Eb, Ed. reflexivity. }
    destruct (@accumulate K isz leafs (hm_data st) t (mscale alpha xp) sched yp) as (y & E3 & H3).
    { intros task Hin. apply (Permutation_in _ Hperm) in Hin. unfold tasks in Hin.
      apply in_flat_map in Hin. destruct Hin as (id & Hid & Hin).
      destruct (Hres id Hid) as (b & Eb & Er). rewrite Eb in Hin. apply in_map_iff in Hin.
      destruct Hin as (r & <- & _). cbn [fst]. eauto. }
    rewrite E3. destruct (to_orig_ok y junk Hpout) as (y' & E4 & H4).
    exists y'. split; [exact E4|]. exists xp. split; [exact H1|].
    intros i h j Ei. rewrite (H4 i h Ei), H3, (H2 i h Ei). f_equal.
    rewrite (bsum_perm _ Hperm), bsum_tasks, <- bsum_mul_l. apply bsum_ext.
    intros id Hid. destruct (Hres id Hid) as (b & Eb & Er). rewrite Er, Eb.
    destruct (out_in b t h); [|ring].
    rewrite (@hd_apply_entry K isz isz_ok (blk id) b t) by (apply Hshape; exact Eb).
    rewrite <- bsum_mul_l.
    apply bsum_ext. intros k _. unfold mscale. ring.
  Qed.

  Lemma init_data rank nproc id :
    In id (hm_my (hm_initialize blk rank nproc (length leafs) (hm_new K))) ->
    (0 < nproc)%nat -> (rank < nproc)%nat ->
    (id < length leafs)%nat /\
    hm_data (hm_initialize blk rank nproc (length leafs) (hm_new K)) id = Some (blk id).
  Proof.
    cbn [hm_initialize hm_my hm_data hm_reset hm_new]. intros Hin Hp Hr. split.
    - apply my_leafs_spec in Hin; tauto.
    - destruct (existsb (Nat.eqb id) ([] ++ my_leafs rank nproc (length leafs))) eqn:E; [reflexivity|].
      exfalso. apply not_true_iff_false in E. apply E. apply existsb_exists. exists id.
      split; [exact Hin|apply Nat.eqb_refl].
  Qed.

  Lemma base0 (Y : mat) i j : base 0 Y i j = beta * Y i j.
  Proof.
    unfold base. cbn [Nat.eqb negb]. rewrite orb_false_r. destruct (isz beta) eqn:E.
    - apply isz_ok in E. rewrite E. unfold mzero. ring.
    - ring.
  Qed.
  Lemma baseS r (Y : mat) i j : base (S r) Y i j = 0.
  Proof. unfold base. cbn [Nat.eqb negb]. rewrite orb_true_r. reflexivity. Qed.

  (** C06 / C07: result of the collective product for any number of ranks, any thread
      schedule on each rank *)
  Lemma apply_dist_ok nproc sched junk (Y : nat -> mat) :
    (0 < nproc)%nat ->
    (forall r, (r < nproc)%nat -> Permutation (sched r) (tasks leafs t (my_leafs r nproc (length leafs)))) ->
    exists y, apply_dist isz leafs pr pc nr nc nproc
                (fun r => hm_initialize blk r nproc (length leafs) (hm_new K))
                sched junk X Y t alpha beta = Some y /\
      forall i j, (i < nout)%nat ->
        y i j = alpha * bsum (seq 0 nin) (fun q => op t M i q * X q j) + beta * Y 0%nat i j.
  Proof.
    intros Hp Hs. unfold apply_dist.
    set (st := fun r => hm_initialize blk r nproc (length leafs) (hm_new K)).
    assert (Hmy : forall r, hm_my (st r) = my_leafs r nproc (length leafs)) by reflexivity.
    assert (Hloc : forall r, (r < nproc)%nat -> exists y,
      apply_local isz leafs pr pc nr nc r (st r) (sched r) (junk r) X (Y r) t alpha beta = Some y /\
      exists xp, (forall q g, nth_error (o2h pin) q = Some g -> forall j, xp g j = X q j) /\
      forall i h j, nth_error (o2h pout) i = Some h ->
        y i j = base r (Y r) i j +
          alpha * bsum (my_leafs r nproc (length leafs)) (fun id => match nth_error leafs id with
            | Some b => if out_in b t h then
                     bsum (seq 0 (inner b t)) (fun k => opentry t (blk id) (h - out_lo b t) k * xp (in_lo b t + k)%nat j)
                   else 0
            | None => 0 end)).
    { intros r Hr. apply apply_local_ok.
      - intros id Hid. apply init_data; auto.
      - rewrite Hmy. apply Hs. exact Hr. }
    (* xp can be chosen uniformly: only its values at H indices of real dofs matter *)
    destruct (to_hmat_ok X (mzero K) Hpin) as (xp0 & _ & Hxp0).
    set (L := fun h j id => match nth_error leafs id with
            | Some b => if out_in b t h then
                     bsum (seq 0 (inner b t)) (fun k => opentry t (blk id) (h - out_lo b t) k * xp0 (in_lo b t + k)%nat j)
                   else 0
            | None => 0 end).
    assert (Hloc' : forall r, (r < nproc)%nat -> exists y,
      apply_local isz leafs pr pc nr nc r (st r) (sched r) (junk r) X (Y r) t alpha beta = Some y /\
      forall i h j, nth_error (o2h pout) i = Some h ->
        y i j = base r (Y r) i j + alpha * bsum (my_leafs r nproc (length leafs)) (L h j)).
    { intros r Hr. destruct (Hloc r Hr) as (y & E & xp & Hxp & H). exists y. split; [exact E|].
      intros i h j Ei. rewrite (H i h j Ei). f_equal. f_equal. apply bsum_ext. intros id Hid.
      unfold L. destruct (nth_error leafs id) as [b|] eqn:Eb; [|reflexivity].
      destruct (out_in b t h); [|reflexivity]. apply bsum_ext. intros k Hk. apply in_seq in Hk.
      f_equal. assert (Hb : In b leafs) by (eapply nth_error_In; eauto).
      pose proof (in_hi_bound _ Hb) as HB.
      pose proof Hpin as (_ & _ & _ & Bin).
      destruct (Bin (in_lo b t + k)%nat) as (q & _ & _ & Eq).
      { unfold in_hi, in_lo, inner in *. destruct (isT t); lia. }
      rewrite (Hxp q _ Eq), (Hxp0 q _ Eq). reflexivity. }
    assert (Hsum : forall i h j, nth_error (o2h pout) i = Some h ->
       bsum (seq 0 (length leafs)) (L h j) = bsum (seq 0 nin) (fun q => op t M i q * X q j)).
    { intros i h j Ei. apply all_leaves; assumption. }
    clear Hloc. destruct (Nat.ltb_spec 1 nproc) as [Hgt|Hle].
    - (* allreduce *)
      set (loc := fun r => apply_local isz leafs pr pc nr nc r (st r) (sched r) (junk r) X (Y r) t alpha beta).
      assert (Hred : forall a k, (a + k <= nproc)%nat -> exists y, allreduce (map loc (seq a k)) = Some y /\
         forall i h j, nth_error (o2h pout) i = Some h ->
           y i j = bsum (seq a k) (fun r => base r (Y r) i j)
                   + alpha * bsum (flat_map (fun r => my_leafs r nproc (length leafs)) (seq a k)) (L h j)).
      { intros a k; revert a; induction k as [|k IH]; intros a Ha.
        - exists (mzero K). split; [reflexivity|]. intros. cbn [seq flat_map]. rewrite !bsum_nil. unfold mzero. ring.
        - destruct (IH (S a)) as (y2 & E2 & H2); [lia|].
          destruct (Hloc' a) as (y1 & E1 & H1); [lia|].
          cbn [seq map allreduce]. unfold loc at 1. rewrite E1, E2. exists (madd y1 y2).
          split; [reflexivity|]. intros i h j Ei. unfold madd. rewrite (H1 i h j Ei), (H2 i h j Ei).
          cbn [flat_map]. rewrite bsum_cons, bsum_app. ring. }
      destruct (Hred 0%nat nproc) as (y & E & H); [lia|].
      exists y. split; [exact E|]. intros i j Hi.
      pose proof Hpout as (_ & _ & Aout & _). destruct (Aout i Hi) as (h & Hh & Eh & _).
      rewrite (H i h j Eh), (bsum_perm _ (my_leafs_partition (length leafs) Hp)), (Hsum i h j Eh).
      destruct nproc as [|np]; [lia|]. cbn [seq]. rewrite bsum_cons, base0.
      rewrite (bsum_zero (seq 1 np)).
      2:{ intros r Hr. apply in_seq in Hr. destruct r as [|r]; [lia|]. apply baseS. }
      ring.
    - assert (nproc = 1%nat) by lia. subst nproc. destruct (Hloc' 0%nat) as (y & E & H); [lia|].
      exists y. split; [exact E|]. intros i j Hi.
      pose proof Hpout as (_ & _ & Aout & _). destruct (Aout i Hi) as (h & Hh & Eh & _).
      rewrite (H i h j Eh), base0. pose proof (my_leafs_partition (length leafs) Hp) as P.
      cbn [seq flat_map] in P. rewrite app_nil_r in P. rewrite (bsum_perm _ P), (Hsum i h j Eh). ring.
  Qed.
End Main.
