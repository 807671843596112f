(** Proofs for C10. *)
From Coq Require Import Reals Lra.
From Verif Require Import Base HMatTreeModel HMatTreeSpec HMatTreeProofs HMatBlockProofs
  HMatApplyModel HMatApplySpec HMatApplyProofs HMatApplyProofs2 ComplexR HMatNormModel.
Set Implicit Arguments.

Notation rsum := (bsum (K := Rsr)).

Definition entry_sum (d : hdata CR) (rows cols : nat) : R :=
  rsum (seq 0 rows) (fun i => rsum (seq 0 cols) (fun j => cabs2 (hentry d i j))).

Lemma entry_sum_nonneg d r c : (0 <= entry_sum d r c)%R.
Proof. apply bsum_nonneg; intros; apply bsum_nonneg; intros; apply cabs2_nonneg. Qed.

Section LR.
  Add Ring CRring : (sr_ring CR).
  Local Open Scope sr_scope.
  Lemma lowrank_quadratic ar ac (A B : mat CR) i :
    bsum (seq 0 ac) (fun q => bsum (seq 0 ac) (fun p => conj (B p i) * bsum (seq 0 ar) (fun k => conj (A k p) * A k q)) * B q i)
    = bsum (seq 0 ar) (fun k => conj (bsum (seq 0 ac) (fun p => A k p * B p i)) * bsum (seq 0 ac) (fun q => A k q * B q i)).
  Proof.
    rewrite (bsum_ext (seq 0 ac) _ (fun q => bsum (seq 0 ar) (fun k =>
      bsum (seq 0 ac) (fun p => conj (B p i) * conj (A k p)) * (A k q * B q i)))).
    - rewrite bsum_swap. apply bsum_ext. intros k _. rewrite bsum_mul_l. f_equal.
      rewrite bsum_conj. apply bsum_ext. intros p _. rewrite conj_mul. ring.
    - intros q _. rewrite <- bsum_mul_r.
      rewrite (bsum_ext (seq 0 ar) _ (fun k => bsum (seq 0 ac) (fun p => conj (B p i) * conj (A k p) * (A k q * B q i)))).
      2:{ intros k _. rewrite bsum_mul_r. reflexivity. }
      rewrite bsum_swap. apply bsum_ext. intros p _.
      rewrite <- bsum_mul_l, <- bsum_mul_r. apply bsum_ext. intros k _. ring.
  Qed.
End LR.

Lemma hd_norm_entry d rows cols : hd_shape d rows cols -> hd_norm d = sqrt (entry_sum d rows cols).
Proof.
  intros H. destruct d as [r c A|ar ac A br bc B]; cbn [hd_shape] in H.
  - destruct H as [-> ->]. reflexivity.
  - unfold hd_norm. destruct (Nat.eqb_spec ac 0) as [->|Hne].
    + symmetry. rewrite <- sqrt_0 at 1. f_equal. unfold entry_sum. apply (bsum_zero (K := Rsr)). intros i _.
      apply (bsum_zero (K := Rsr)). intros j _. cbn. unfold cabs2. cbn. ring.
    + destruct H as [?|(-> & -> & ->)]; [contradiction|]. f_equal.
      rewrite fst_bsum.
      rewrite (bsum_ext (K := Rsr) (seq 0 cols) _ (fun j => rsum (seq 0 rows) (fun i => cabs2 (hentry (LowRank rows ac A ac cols B) i j)))).
      * unfold entry_sum. rewrite (bsum_swap (K := Rsr)). reflexivity.
      * intros j _. rewrite lowrank_quadratic, fst_bsum. apply (bsum_ext (K := Rsr)). intros i _.
        rewrite re_conj_mul. reflexivity.
Qed.

Section Tree.
  Variable G : Type.
  Variable data : leafblk -> option (hdata CR).

  Definition leafN2 (s : stree (bdata G)) : R :=
    match data (leaf_of s) with
    | Some d => entry_sum d (size_of (brow (sdata s))) (size_of (bcol (sdata s)))
    | None => 0%R
    end.
  Lemma leafN2_nonneg s : (0 <= leafN2 s)%R.
  Proof. unfold leafN2. destruct (data (leaf_of s)); [apply entry_sum_nonneg|lra]. Qed.

  Lemma frob_leaves (t : stree (bdata G)) :
    (forall s, In s (dfs_leaves t) -> exists d, data (leaf_of s) = Some d /\
        hd_shape d (size_of (brow (sdata s))) (size_of (bcol (sdata s)))) ->
    frobeniusNorm data t = Some (sqrt (rsum (dfs_leaves t) leafN2)).
  Proof.
    induction t as [bd ch IH] using stree_ind'. intros H. destruct ch as [|c0 ch0].
    - cbn [frobeniusNorm dfs_leaves]. destruct (H (SNode bd []) (or_introl eq_refl)) as (d & E & Hs).
      rewrite E. rewrite (bsum_cons (K := Rsr)), (bsum_nil (K := Rsr)). unfold leafN2. rewrite E.
      rewrite (hd_norm_entry _ _ _ Hs). cbn. rewrite Rplus_0_r. reflexivity.
    - change (dfs_leaves (SNode bd (c0 :: ch0))) with (flat_map dfs_leaves (c0 :: ch0)) in *.
      cbn [frobeniusNorm].
      match goal with |- match ?F with _ => _ end = _ =>
        assert (E : F = Some (rsum (flat_map dfs_leaves (c0 :: ch0)) leafN2)) end.
      { change (fold_right (fun c acc => match frobeniusNorm data c, acc with
                  | Some r, Some s => Some (r * r + s)%R | _, _ => None end) (Some 0%R) (c0 :: ch0)
                = Some (rsum (flat_map dfs_leaves (c0 :: ch0)) leafN2)).
        induction (c0 :: ch0) as [|c l IHl]; [reflexivity|].
        cbn [fold_right flat_map]. rewrite IHl.
        - rewrite (IH c (or_introl eq_refl)).
          + rewrite (bsum_app (K := Rsr)). cbn. f_equal. f_equal. apply sqrt_sqrt.
            apply bsum_nonneg. intros; apply leafN2_nonneg.
          + intros s Hs. apply H. cbn [flat_map]. apply in_app_iff. now left.
        - intros x Hx. apply IH. now right.
        - intros s Hs. apply H. cbn [flat_map]. apply in_app_iff. now right. }
      rewrite E. reflexivity.
  Qed.
End Tree.

Section Main.
  Variable G : Type.
  Variable adm : cdata G -> cdata G -> bool.
  Variable mx : Z.
  Variables (geomR geomC : list nat -> G) (sortR sortC : G -> list nat -> list nat).
  Hypothesis permR : forall g l, Permutation (sortR g l) l.
  Hypothesis permC : forall g l, Permutation (sortC g l) l.
  Variables (n m : nat) (mbsR mbsC : Z) (tr tc : stree (cdata G)) (pr pc : dofperm).
  Hypothesis ER : clusterTree geomR sortR n mbsR = Some (tr, pr).
  Hypothesis EC : clusterTree geomC sortC m mbsC = Some (tc, pc).
  Variable l : list (stree (bdata G)).
  Hypothesis EL : leafNodes (blockClusterTree adm mx tr tc) = Some l.
  Variable dat : leafblk -> hdata CR.
  Hypothesis Hshape : forall s, In s l ->
    hd_shape (dat (leaf_of s)) (size_of (brow (sdata s))) (size_of (bcol (sdata s))).
  Variable M : mat CR.
  Hypothesis HM : forall s i j h g, In s l -> i < n -> j < m ->
      nth_error (o2h pr) i = Some h -> nth_error (o2h pc) j = Some g ->
      covers h g s = true ->
      M i j = hentry (dat (leaf_of s)) (h - clo (sdata (brow (sdata s)))) (g - clo (sdata (bcol (sdata s)))).

  Lemma reindex p k (f : nat -> R) : perm_ok p k ->
    rsum (seq 0 k) f = rsum (seq 0 k) (fun q => f (nth q (o2h p) 0)).
  Proof.
    intros Hp. rewrite <- (bsum_perm (K := Rsr) f (seq_perm_map 0 0 NOTRANS Hp)), (bsum_map (K := Rsr)). reflexivity.
  Qed.

  Lemma range_sum (a b N : nat) (f : nat -> R) : b <= N ->
    rsum (seq 0 (b - a)) f = rsum (seq 0 N) (fun h => if ((a <=? h) && (h <? b))%bool then f (h - a) else 0%R).
  Proof.
    intros Hb. etransitivity; [|exact (bsum_filter (K := Rsr) (seq 0 N) (fun h => ((a <=? h) && (h <? b))%bool) (fun h => f (h - a)))].
    assert (Ef : Permutation (filter (fun h => ((a <=? h) && (h <? b))%bool) (seq 0 N)) (map (fun k => a + k) (seq 0 (b - a)))).
    { apply NoDup_Permutation.
      - apply NoDup_filter, seq_NoDup.
      - apply FinFun.Injective_map_NoDup; [intros x y; lia|apply seq_NoDup].
      - intros x. rewrite filter_In, in_seq, in_map_iff, andb_true_iff, Nat.leb_le, Nat.ltb_lt. split.
        + intros H. exists (x - a). rewrite in_seq. lia.
        + intros (k & <- & Hk). apply in_seq in Hk. lia. }
    rewrite (bsum_perm (K := Rsr) _ Ef), (bsum_map (K := Rsr)). apply (bsum_ext (K := Rsr)).
    intros k _. f_equal. lia.
  Qed.

  Lemma frob_correct :
    frobeniusNorm (fun b => Some (dat b)) (blockClusterTree adm mx tr tc)
    = Some (sqrt (rsum (seq 0 n) (fun i => rsum (seq 0 m) (fun j => cabs2 (M i j))))).
  Proof.
    destruct (leafNodes_perm (blockClusterTree adm mx tr tc)) as (l' & E & P).
    rewrite EL in E. inversion E; subst l'.
    destruct (block_tiling adm mx geomR geomC sortR sortC permR permC _ _ _ _ ER EC) as (l' & E' & _ & T1 & T2).
    rewrite EL in E'. inversion E'; subst l'.
    rewrite frob_leaves.
    2:{ intros s Hs. eexists. split; [reflexivity|]. apply Hshape.
        eapply Permutation_in; [symmetry; exact P|exact Hs]. }
    f_equal. f_equal. rewrite <- (bsum_perm (K := Rsr) _ P).
    pose proof (cluster_perm_ok permR ER) as PR. pose proof (cluster_perm_ok permC EC) as PC.
    pose proof PR as (LR & _ & AR & _). pose proof PC as (LC & _ & AC & _).
    transitivity (rsum l (fun s => rsum (seq 0 n) (fun i => rsum (seq 0 m) (fun j =>
       if covers (nth i (o2h pr) 0) (nth j (o2h pc) 0) s then cabs2 (M i j) else 0%R)))).
    - apply (bsum_ext (K := Rsr)). intros s Hs. destruct (T2 s Hs) as [[R1 R2] [C1 C2]].
      unfold leafN2, entry_sum, size_of.
      rewrite (@range_sum (clo (sdata (brow (sdata s)))) (chi (sdata (brow (sdata s)))) n) by exact R2.
      rewrite (reindex _ PR). apply (bsum_ext (K := Rsr)). intros i Hi. apply in_seq in Hi.
      destruct (AR i) as (h & _ & Eh & _); [lia|]. rewrite (nth_error_nth _ _ 0 Eh).
      destruct ((clo (sdata (brow (sdata s))) <=? h) && (h <? chi (sdata (brow (sdata s)))))%bool eqn:Eh'.
      + rewrite (@range_sum (clo (sdata (bcol (sdata s)))) (chi (sdata (bcol (sdata s)))) m) by exact C2.
        rewrite (reindex _ PC). apply (bsum_ext (K := Rsr)). intros j Hj. apply in_seq in Hj.
        destruct (AC j) as (g & _ & Eg & _); [lia|]. rewrite (nth_error_nth _ _ 0 Eg).
        unfold covers, in_range. rewrite Eh'. cbn [andb].
        destruct ((clo (sdata (bcol (sdata s))) <=? g) && (g <? chi (sdata (bcol (sdata s)))))%bool eqn:Eg'; [|reflexivity].
        f_equal. symmetry. apply HM; auto; try lia.
        unfold covers, in_range. rewrite Eh', Eg'. reflexivity.
      + symmetry. apply (bsum_zero (K := Rsr)). intros j _. unfold covers, in_range. rewrite Eh'. reflexivity.
    - rewrite (bsum_swap (K := Rsr)). apply (bsum_ext (K := Rsr)). intros i Hi. apply in_seq in Hi.
      rewrite (bsum_swap (K := Rsr)). apply (bsum_ext (K := Rsr)). intros j Hj. apply in_seq in Hj.
      destruct (AR i) as (h & Hh & Eh & _); [lia|]. rewrite (nth_error_nth _ _ 0 Eh).
      destruct (AC j) as (g & Hg & Eg & _); [lia|]. rewrite (nth_error_nth _ _ 0 Eg).
      apply (bsum_unique Rsr). apply T1; assumption.
  Qed.
End Main.
