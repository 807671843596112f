(** End-to-end statements for C06-C09: built cluster trees, block tree leaves. *)
From Verif Require Import Base HMatTreeModel HMatTreeSpec HMatTreeProofs HMatBlockProofs
  HMatApplyModel HMatApplySpec HMatApplyProofs.
Set Implicit Arguments.

Lemma cluster_perm_ok G geom sortf n mbs t p :
  (forall g l, Permutation (sortf g l) l) ->
  @clusterTree G geom sortf n mbs = Some (t, p) -> perm_ok p n.
Proof.
  intros Hs E. pose proof (cluster_perm_bij geom sortf Hs _ _ E) as (A & B & _).
  assert (Hn : 0 < n).
  { unfold clusterTree in E. destruct (Nat.eqb_spec n 0); [discriminate|lia]. }
  destruct (clusterTree_ok geom sortf Hs mbs Hn) as (t' & p' & o & E' & Bt & P & L & Eo & Inv).
  rewrite E in E'. inversion E'; subst t' p'.
  split; [exact L|]. split.
  { rewrite Eo, (Permutation_length P). apply seq_length. }
  split; [exact A|exact B].
Qed.
Arguments cluster_perm_ok {G geom sortf n mbs t p}.

Lemma filter_map_length A B (f : A -> B) (p : B -> bool) l :
  length (filter p (map f l)) = length (filter (fun a => p (f a)) l).
Proof. induction l as [|a l IH]; [reflexivity|]. cbn. destruct (p (f a)); cbn; rewrite IH; reflexivity. Qed.

Section EndToEnd.
  Variable G : Type.
  Variable adm : cdata G -> cdata G -> bool.
  Variable mx : Z.
  Variables (geomR geomC : list nat -> G) (sortR sortC : G -> list nat -> list nat).
  Hypothesis permR : forall g l, Permutation (sortR g l) l.
  Hypothesis permC : forall g l, Permutation (sortC g l) l.
  Variables (n m : nat) (mbsR mbsC : Z) (tr tc : stree (cdata G)) (pr pc : dofperm).
  Hypothesis ER : clusterTree geomR sortR n mbsR = Some (tr, pr).
  Hypothesis EC : clusterTree geomC sortC m mbsC = Some (tc, pc).
  Variable l : list (stree (bdata G)).
  Hypothesis EL : leafNodes (blockClusterTree adm mx tr tc) = Some l.

  Lemma block_tiling' : tiling (map leaf_of l) n m.
  Proof.
    destruct (block_tiling adm mx geomR geomC sortR sortC permR permC _ _ _ _ ER EC) as (l' & E & _ & H1 & H2).
    rewrite EL in E. inversion E; subst l'. split.
    - intros h g Hh Hg. rewrite filter_map_length. rewrite <- (H1 h g Hh Hg). reflexivity.
    - intros b Hb. apply in_map_iff in Hb. destruct Hb as (s & <- & Hs).
      destruct (H2 s Hs). cbn [leaf_of r1 c1]. lia.
  Qed.

  Variable K : star_ring.
  Variable isz : K -> bool.
  Hypothesis isz_ok : forall x, isz x = true <-> x = zero.
  Variable blk : nat -> hdata K.
  Hypothesis Hshape : forall id s, nth_error l id = Some s ->
    hd_shape (blk id) (size_of (brow (sdata s))) (size_of (bcol (sdata s))).

  Lemma Hshape' : forall id b, nth_error (map leaf_of l) id = Some b ->
    hd_shape (blk id) (r1 b - r0 b) (c1 b - c0 b).
  Proof.
    intros id b E. rewrite nth_error_map in E. destruct (nth_error l id) as [s|] eqn:Es; [|discriminate].
    inversion E; subst b. exact (Hshape _ Es).
  Qed.

  (** the represented matrix exists *)
  Lemma represented_exists : exists M, represents (map leaf_of l) blk pr pc n m M.
  Proof.
    destruct block_tiling' as [T1 T2].
    set (find := fix find (id : nat) (bs : list leafblk) (h g : nat) : K :=
      match bs with
      | [] => zero
      | b :: rest => if blk_covers b h g then hentry (blk id) (h - r0 b) (g - c0 b) else find (S id) rest h g
      end).
    exists (fun i j => find 0 (map leaf_of l) (nth i (o2h pr) 0) (nth j (o2h pc) 0)).
    intros id b i j h g Hi Hj Eb Eh Eg Hr Hc.
    rewrite (nth_error_nth _ _ 0 Eh), (nth_error_nth _ _ 0 Eg).
    assert (Hh : h < n). { apply (perm_ok_bound _ (cluster_perm_ok permR ER) Eh). }
    assert (Hg : g < m). { apply (perm_ok_bound _ (cluster_perm_ok permC EC) Eg). }
    pose proof (T1 h g Hh Hg) as Hu.
    assert (Hcov : blk_covers b h g = true).
    { unfold blk_covers. rewrite !andb_true_iff, !Nat.leb_le, !Nat.ltb_lt. lia. }
    clear - Hu Eb Hcov. generalize dependent (map leaf_of l). intros bs.
    assert (H : forall bs k id, nth_error bs id = Some b ->
       length (filter (fun b => blk_covers b h g) bs) = 1 ->
       find k bs h g = hentry (blk (k + id)) (h - r0 b) (g - c0 b)).
    { clear bs id. induction bs as [|b0 bs IH]; intros k id Eb Hu; [destruct id; discriminate|].
      destruct id as [|id].
      - inversion Eb; subst b0. cbn. rewrite Hcov. rewrite Nat.add_0_r. reflexivity.
      - cbn [nth_error] in Eb. cbn [filter] in Hu. cbn. destruct (blk_covers b0 h g) eqn:E0.
        + exfalso. cbn in Hu. assert (Hin : In b (filter (fun b => blk_covers b h g) bs)).
          { apply filter_In. split; [eapply nth_error_In; eauto|exact Hcov]. }
          destruct (filter (fun b => blk_covers b h g) bs); [contradiction|]. discriminate.
        + rewrite (IH (S k) id Eb Hu). f_equal. f_equal. lia. }
    intros Eb Hu. apply (H bs 0 id Eb Hu).
  Qed.

  Variable M : mat K.
  Hypothesis HM : represents (map leaf_of l) blk pr pc n m M.

  Lemma apply_dist_e2e t nproc sched junk (X : mat K) (Y : nat -> mat K) alpha beta :
    0 < nproc ->
    (forall r, r < nproc -> Permutation (sched r) (tasks (map leaf_of l) t (my_leafs r nproc (length l)))) ->
    exists y, apply_dist isz (map leaf_of l) pr pc n m nproc
                (fun r => hm_initialize blk r nproc (length l) (hm_new K))
                sched junk X Y t alpha beta = Some y /\
      forall i j, i < (if isT t then m else n) ->
        y i j = add (mul alpha (bsum (seq 0 (if isT t then n else m)) (fun q => mul (op t M i q) (X q j))))
                    (mul beta (Y 0 i j)).
  Proof.
    intros Hp Hs.
    assert (HL : length l = length (map leaf_of l)) by (rewrite map_length; reflexivity).
    rewrite HL in *.
    apply (@apply_dist_ok K isz isz_ok (map leaf_of l) n m block_tiling' pr pc
             (cluster_perm_ok permR ER) (cluster_perm_ok permC EC) blk Hshape' M HM t
             alpha beta X nproc sched junk Y Hp Hs).
  Qed.

  (** one process: apply_local with rank 0 *)
  Lemma apply_serial_e2e t sched junk (X Y : mat K) alpha beta :
    Permutation sched (tasks (map leaf_of l) t (seq 0 (length l))) ->
    exists y, apply_local isz (map leaf_of l) pr pc n m 0
                (hm_initialize blk 0 1 (length l) (hm_new K)) sched junk X Y t alpha beta = Some y /\
      forall i j, i < (if isT t then m else n) ->
        y i j = add (mul alpha (bsum (seq 0 (if isT t then n else m)) (fun q => mul (op t M i q) (X q j))))
                    (mul beta (Y i j)).
  Proof.
    intros Hs.
    destruct (@apply_dist_e2e t 1 (fun _ => sched) (fun _ => junk) X (fun _ => Y) alpha beta) as (y & E & H).
    - lia.
    - intros r Hr. assert (r = 0) by lia. subst r. rewrite Hs.
      pose proof (my_leafs_partition (length l) (Nat.lt_0_1)) as P. cbn [seq flat_map] in P.
      rewrite app_nil_r in P. unfold tasks. apply Permutation_flat_map. symmetry. exact P.
    - exists y. split; [exact E|exact H].
  Qed.

  (** C09: after initialising twice every leaf is applied twice *)
  Add Ring Kr3 : (sr_ring K).
  Lemma apply_twice_init t sched junk (X Y : mat K) alpha beta :
    let st := hm_initialize blk 0 1 (length l) (hm_initialize blk 0 1 (length l) (hm_new K)) in
    Permutation sched (tasks (map leaf_of l) t (hm_my st)) ->
    exists y, apply_local isz (map leaf_of l) pr pc n m 0 st sched junk X Y t alpha beta = Some y /\
      forall i j, i < (if isT t then m else n) ->
        let p := bsum (seq 0 (if isT t then n else m)) (fun q => mul (op t M i q) (X q j)) in
        y i j = add (mul alpha (add p p)) (mul beta (Y i j)).
  Proof.
    intros st Hs.
    assert (HL : length (map leaf_of l) = length l) by apply map_length.
    pose proof (cluster_perm_ok permR ER) as PR. pose proof (cluster_perm_ok permC EC) as PC.
    assert (Hmy : hm_my st = my_leafs 0 1 (length l) ++ my_leafs 0 1 (length l)) by reflexivity.
    destruct (@apply_local_ok K isz isz_ok (map leaf_of l) n m pr pc PR PC blk Hshape' t alpha beta X
                0 st sched junk Y) as (y & E & xp & Hxp & H).
    - intros id Hid. rewrite HL.
      assert (Hin : In id (my_leafs 0 1 (length l))) by (rewrite Hmy in Hid; apply in_app_iff in Hid; tauto).
      split; [apply my_leafs_spec in Hin; lia|].
      unfold st. cbn [hm_initialize hm_data hm_my hm_reset hm_new].
      destruct (existsb (Nat.eqb id) _) eqn:Ex; [reflexivity|]. exfalso.
      apply not_true_iff_false in Ex. apply Ex. apply existsb_exists. exists id.
      split; [exact Hid|apply Nat.eqb_refl].
    - exact Hs.
    - exists y. split; [exact E|]. intros i j Hi p.
      assert (Hpo : perm_ok (if isT t then pc else pr) (if isT t then m else n)) by (destruct (isT t); assumption).
      pose proof Hpo as (_ & _ & A & _). destruct (A i Hi) as (h & Hh & Eh & _).
      rewrite (H i h j Eh), (base0 isz isz_ok), Hmy, bsum_app.
      pose proof (my_leafs_partition (length l) (Nat.lt_0_1)) as P. cbn [seq flat_map] in P.
      rewrite app_nil_r in P. rewrite (bsum_perm _ P).
      pose proof (@all_leaves K (map leaf_of l) n m block_tiling' pr pc PR PC blk M HM t X xp i h j Hxp Eh) as HA.
      rewrite HL in HA. rewrite HA. unfold p. ring.
  Qed.
End EndToEnd.
