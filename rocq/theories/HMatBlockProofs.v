(** Proofs about block cluster trees (C04, C05). *)
From Verif Require Import Base HMatTreeModel HMatTreeSpec HMatTreeProofs.
Set Implicit Arguments.

Section Block.
  Variable G : Type.

  Definition crange (t : stree (cdata G)) : list nat :=
    seq (clo (sdata t)) (chi (sdata t) - clo (sdata t)).

  (** children tile the parent's range, recursively *)
  Inductive cwf : stree (cdata G) -> Prop :=
  | cwf_leaf : forall d, clo d < chi d -> cwf (SNode d [])
  | cwf_node : forall d ch, clo d < chi d -> ch <> [] ->
      flat_map crange ch = crange (SNode d ch) ->
      (forall c, In c ch -> cwf c) -> cwf (SNode d ch).

  Lemma cwf_pos t : cwf t -> clo (sdata t) < chi (sdata t).
  Proof. destruct 1; assumption. Qed.

  Lemma built_cwf geom mbs a idx t o : @built G geom mbs a idx t o -> cwf t.
  Proof.
    induction 1 as [a idx Hpos Hs|a idx f s t1 t2 o1 o2 Hts Hp Hf Hs Hh B1 IH1 B2 IH2].
    - constructor. cbn. lia.
    - pose proof (Permutation_length Hp) as HL. rewrite app_length in HL.
      destruct (built_data B1) as [D1 _]. destruct (built_data B2) as [D2 _].
      constructor; cbn [clo chi]; [lia|discriminate| |].
      + cbn [flat_map]. unfold crange. cbn [sdata]. rewrite D1, D2, app_nil_r. cbn [clo chi].
        replace (a + length f - a) with (length f) by lia.
        replace (a + length f + length s - (a + length f)) with (length s) by lia.
        replace (a + length idx - a) with (length f + length s) by lia.
        rewrite seq_app. reflexivity.
      + intros c [<-|[<-|[]]]; assumption.
  Qed.

  Definition cnt {A} (p : A -> bool) (l : list A) : nat := length (filter p l).
  Lemma cnt_app A (p : A -> bool) l1 l2 : cnt p (l1 ++ l2) = cnt p l1 + cnt p l2.
  Proof. unfold cnt. rewrite filter_app, app_length. reflexivity. Qed.
  Lemma cnt_cons A (p : A -> bool) a l : cnt p (a :: l) = (if p a then 1 else 0) + cnt p l.
  Proof. unfold cnt. cbn. destruct (p a); reflexivity. Qed.

  Lemma cnt_seq a n i : cnt (Nat.eqb i) (seq a n) = if (a <=? i) && (i <? a + n) then 1 else 0.
  Proof.
    revert a; induction n as [|n IH]; intros a.
    - change (cnt (Nat.eqb i) (seq a 0)) with 0.
      destruct (Nat.leb_spec a i), (Nat.ltb_spec i (a + 0)); cbn; auto; lia.
    - cbn [seq]. rewrite cnt_cons, IH.
      destruct (Nat.eqb_spec i a), (Nat.leb_spec (S a) i), (Nat.ltb_spec i (S a + n)),
        (Nat.leb_spec a i), (Nat.ltb_spec i (a + S n)); cbn; auto; lia.
  Qed.

  Lemma cnt_children i (ch : list (stree (cdata G))) :
    (forall c, In c ch -> clo (sdata c) < chi (sdata c)) ->
    cnt (fun c => in_range (sdata c) i) ch = cnt (Nat.eqb i) (flat_map crange ch).
  Proof.
    induction ch as [|c ch IH]; intros H; [reflexivity|].
    cbn [flat_map]. rewrite cnt_cons, cnt_app, IH by (intros; apply H; now right).
    f_equal. unfold crange. rewrite cnt_seq. unfold in_range.
    pose proof (H c (or_introl eq_refl)).
    replace (clo (sdata c) + (chi (sdata c) - clo (sdata c))) with (chi (sdata c)) by lia.
    reflexivity.
  Qed.

  Lemma cwf_count d ch i : cwf (SNode d ch) -> ch <> [] ->
    cnt (fun c => in_range (sdata c) i) ch = if in_range d i then 1 else 0.
  Proof.
    intros H Hne. inversion H as [|? ? Hlt _ Hfl Hc]; subst; [contradiction|].
    rewrite cnt_children by (intros c Hin; apply cwf_pos; auto).
    rewrite Hfl. unfold crange. rewrite cnt_seq. cbn [sdata]. unfold in_range.
    replace (clo d + (chi d - clo d)) with (chi d) by lia. reflexivity.
  Qed.

  Variable adm : cdata G -> cdata G -> bool.
  Variable mx : Z.

  Lemma bsplit_data r c f : sdata (bsplit adm mx r c f) = BData r c f.
  Proof. destruct r as [rd rch]. cbn [bsplit]. cbv zeta.
    destruct (if (tooLarge mx (csize (sdata c)) || tooLarge mx (csize rd))%bool then false else f); [reflexivity|].
    destruct ((isLeaf (SNode rd rch) || isLeaf c)%bool); reflexivity.
  Qed.

  Lemma bsplit_cases r c f :
    (bsplit adm mx r c f = SNode (BData r c f) [] /\
      ((f = true /\ tooLarge mx (csize (sdata r)) = false /\ tooLarge mx (csize (sdata c)) = false)
       \/ isLeaf r = true \/ isLeaf c = true))
    \/ (isLeaf r = false /\ isLeaf c = false /\
        (f = false \/ tooLarge mx (csize (sdata r)) = true \/ tooLarge mx (csize (sdata c)) = true) /\
        bsplit adm mx r c f = SNode (BData r c f)
          (flat_map (fun rc => map (fun cc => bsplit adm mx rc cc (adm (sdata r) (sdata c)))
                                   (schildren c)) (schildren r))).
  Proof.
    destruct r as [rd rch]. cbn [bsplit sdata schildren]. cbv zeta.
    destruct (tooLarge mx (csize (sdata c))) eqn:E1, (tooLarge mx (csize rd)) eqn:E2, f; cbn [orb];
    destruct (isLeaf (SNode rd rch)) eqn:E3, (isLeaf c) eqn:E4; cbn [orb];
      try (left; split; [reflexivity|tauto]); right; tauto.
  Qed.

  Lemma isLeaf_false_children T (t : stree T) : isLeaf t = false -> schildren t <> [].
  Proof. unfold isLeaf. destruct (schildren t); [discriminate|intros _; discriminate]. Qed.

  Lemma cnt_product A B C (p : A -> bool) (q : B -> bool) (g : A -> B -> list C) (h : C -> bool) la lb :
    (forall a b, In a la -> In b lb -> cnt h (g a b) = if p a && q b then 1 else 0) ->
    cnt h (flat_map (fun a => flat_map (g a) lb) la) = cnt p la * cnt q lb.
  Proof.
    intros H.
    assert (H1 : forall a, In a la -> cnt h (flat_map (g a) lb) = (if p a then 1 else 0) * cnt q lb).
    { intros a Ha. assert (Hb : forall b, In b lb -> cnt h (g a b) = if p a && q b then 1 else 0) by auto.
      clear H. induction lb as [|b lb IH]; [cbn; destruct (p a); reflexivity|].
      cbn [flat_map]. rewrite cnt_app, cnt_cons, IH by (intros; apply Hb; now right).
      rewrite (Hb b) by now left. destruct (p a), (q b); cbn; lia. }
    clear H. induction la as [|a la IH]; [reflexivity|].
    cbn [flat_map]. rewrite cnt_app, cnt_cons, IH by (intros; apply H1; now right).
    rewrite H1 by now left. lia.
  Qed.

  Lemma dfs_leaves_flat (s : stree (bdata G)) d (l : list (stree (bdata G))) :
    s = SNode d l -> l <> [] -> dfs_leaves s = flat_map dfs_leaves l.
  Proof. intros -> H. apply dfs_leaves_node. unfold isLeaf. cbn. destruct l; [contradiction|reflexivity]. Qed.

  Lemma flat_map_flat_map A B C (f : A -> list B) (g : B -> list C) l :
    flat_map g (flat_map f l) = flat_map (fun a => flat_map g (f a)) l.
  Proof. induction l as [|a l IH]; [reflexivity|]. cbn. rewrite flat_map_app, IH. reflexivity. Qed.
  Lemma flat_map_map A B C (f : A -> B) (g : B -> list C) l :
    flat_map g (map f l) = flat_map (fun a => g (f a)) l.
  Proof. induction l as [|a l IH]; [reflexivity|]. cbn. rewrite IH. reflexivity. Qed.

  Lemma bsplit_count i j : forall r, cwf r -> forall c, cwf c -> forall f,
    cnt (covers i j) (dfs_leaves (bsplit adm mx r c f)) =
    if in_range (sdata r) i && in_range (sdata c) j then 1 else 0.
  Proof.
    induction r as [rd rch IH] using stree_ind'. intros Hr c Hc f.
    destruct (bsplit_cases (SNode rd rch) c f) as [[E _]|(L1 & L2 & _ & E)].
    - rewrite E. cbn [dfs_leaves]. rewrite cnt_cons. unfold covers at 1. cbn [sdata brow bcol].
      change (cnt (covers i j) []) with 0. lia.
    - cbn [schildren sdata] in E. cbn [sdata].
      pose proof (isLeaf_false_children _ L1) as N1. cbn [schildren] in N1.
      pose proof (isLeaf_false_children _ L2) as N2.
      set (fl := adm rd (sdata c)) in E.
      rewrite (dfs_leaves_flat E).
      2:{ destruct rch as [|x rch]; [contradiction|]. cbn. destruct (schildren c); [contradiction|discriminate]. }
      rewrite flat_map_flat_map.
      erewrite flat_map_ext.
      2:{ intros a. rewrite flat_map_map. reflexivity. }
      destruct c as [cd cch]. cbn [schildren sdata] in *.
      inversion Hr as [|? ? _ _ _ Hrc]; subst; [contradiction|].
      inversion Hc as [|? ? _ _ _ Hcc]; subst; [contradiction|].
      rewrite cnt_product with (p := fun a => in_range (sdata a) i) (q := fun b => in_range (sdata b) j).
      2:{ intros a b Ha Hb. apply IH; auto. }
      rewrite (cwf_count i Hr N1), (cwf_count j Hc N2).
      destruct (in_range rd i), (in_range cd j); reflexivity.
  Qed.

  (** every node of the block tree is [bsplit] of nodes of the cluster trees *)
  Lemma bsplit_occurs : forall k r c f s, occurs k s (bsplit adm mx r c f) ->
    exists r' c' f', s = bsplit adm mx r' c' f' /\ occurs k r' r /\ occurs k c' c /\
      (k = 0 -> f' = f) /\
      (forall k', k = S k' -> exists rp cp fp, occurs k' (bsplit adm mx rp cp fp) (bsplit adm mx r c f)
           /\ In s (schildren (bsplit adm mx rp cp fp)) /\ In r' (schildren rp) /\ In c' (schildren cp) /\ occurs k' rp r /\ occurs k' cp c
           /\ f' = adm (sdata rp) (sdata cp)).
  Proof.
    induction k as [|k IH]; intros r c f s Ho.
    - inversion Ho; subst. exists r, c, f. repeat split; auto; try constructor. discriminate.
    - inversion Ho as [|k' ? d ch x Hin Ho' E1 E2 E3]; subst.
      destruct (bsplit_cases r c f) as [[E _]|(L1 & L2 & _ & E)].
      { rewrite E in E3. inversion E3; subst. contradiction. }
      rewrite E in E3. inversion E3; subst ch. apply in_flat_map in Hin.
      destruct Hin as (rc & Hrc & Hin). apply in_map_iff in Hin. destruct Hin as (cc & <- & Hcc).
      destruct (IH _ _ _ _ Ho') as (r' & c' & f' & Es & O1 & O2 & F0 & FS).
      exists r', c', f'. split; [exact Es|].
      assert (Lift : forall k2 x, occurs k2 x rc -> occurs (S k2) x r).
      { intros k2 x Hx. destruct r as [rd rch]. econstructor; eauto. }
      assert (Liftc : forall k2 x, occurs k2 x cc -> occurs (S k2) x c).
      { intros k2 x Hx. destruct c as [cd cch]. econstructor; eauto. }
      split; [auto|]. split; [auto|]. split; [discriminate|].
      intros k' Ek. inversion Ek; subst k'.
      destruct k as [|k].
      + inversion O1; subst. inversion O2; subst.
        exists r, c, f. rewrite <- E. split; [constructor|]. split.
        { rewrite (F0 eq_refl), E. cbn [schildren]. apply in_flat_map. exists rc.
          split; [exact Hrc|]. apply in_map_iff. exists cc. auto. }
        split; [exact Hrc|]. split; [exact Hcc|].
        split; [constructor|]. split; [constructor|]. apply F0. reflexivity.
      + destruct (FS k eq_refl) as (rp & cp & fp & Q1 & Q0 & Q2 & Q3 & Q4 & Q5 & Q6).
        exists rp, cp, fp. split; [|repeat split; auto].
        econstructor; [|exact Q1].
        apply in_flat_map. exists rc. split; [exact Hrc|]. apply in_map_iff. eauto.
  Qed.

  Lemma cwf_occurs k s t : occurs k s t -> cwf t -> cwf s.
  Proof.
    induction 1 as [t|k s d ch c Hin Ho IH]; intros H; [exact H|].
    inversion H as [|? ? _ _ _ Hc]; subst; [contradiction|auto].
  Qed.

  Lemma cwf_child_range d ch c : cwf (SNode d ch) -> In c ch ->
    clo d <= clo (sdata c) /\ chi (sdata c) <= chi d.
  Proof.
    intros H Hin. inversion H as [|? ? Hlt Hne Hfl Hc]; subst; [contradiction|].
    pose proof (cwf_pos (Hc c Hin)) as Hp.
    assert (Hsub : forall x, In x (crange c) -> In x (crange (SNode d ch))).
    { intros x Hx. rewrite <- Hfl. apply in_flat_map. eauto. }
    unfold crange in Hsub. cbn [sdata] in Hsub.
    pose proof (Hsub (clo (sdata c))) as A1. pose proof (Hsub (chi (sdata c) - 1)) as A2.
    rewrite !in_seq in A1, A2. lia.
  Qed.

  Lemma cwf_occurs_range k s t : occurs k s t -> cwf t ->
    clo (sdata t) <= clo (sdata s) /\ chi (sdata s) <= chi (sdata t).
  Proof.
    induction 1 as [t|k s d ch c Hin Ho IH]; intros H; [lia|].
    pose proof (cwf_child_range c H Hin). 
    inversion H as [|? ? _ _ _ Hc]; subst; [contradiction|].
    specialize (IH (Hc c Hin)). cbn [sdata]. lia.
  Qed.
End Block.

Section Level.
  Variable G : Type.
  Variable adm : cdata G -> cdata G -> bool.
  Variable mx : Z.
  Variables (geomR geomC : list nat -> G) (sortR sortC : G -> list nat -> list nat).
  Hypothesis permR : forall g l, Permutation (sortR g l) l.
  Hypothesis permC : forall g l, Permutation (sortC g l) l.
  Variables (n m : nat) (mbsR mbsC : Z) (tr tc : stree (cdata G)) (pr pc : dofperm).
  Hypothesis ER : clusterTree geomR sortR n mbsR = Some (tr, pr).
  Hypothesis EC : clusterTree geomC sortC m mbsC = Some (tc, pc).

  Lemma cluster_cwf geom sortf k mbs t p :
    (forall g l, Permutation (sortf g l) l) ->
    @clusterTree G geom sortf k mbs = Some (t, p) ->
    cwf t /\ clo (sdata t) = 0 /\ chi (sdata t) = k.
  Proof.
    intros Hp E. assert (Hk : 0 < k).
    { unfold clusterTree in E. destruct (Nat.eqb_spec k 0); [discriminate|lia]. }
    destruct (clusterTree_ok geom sortf Hp mbs Hk) as (t' & p' & o & E' & B & _).
    rewrite E in E'. inversion E'; subst t' p'. split; [eapply built_cwf; eauto|].
    destruct (built_data B) as [-> _]. cbn. rewrite seq_length. auto.
  Qed.

  Lemma block_tiling :
    exists l, leafNodes (blockClusterTree adm mx tr tc) = Some l
      /\ numberOfLeafs (blockClusterTree adm mx tr tc) = length l
      /\ (forall i j, i < n -> j < m -> length (filter (covers i j) l) = 1)
      /\ (forall s, In s l ->
            clo (sdata (brow (sdata s))) < chi (sdata (brow (sdata s))) <= n /\
            clo (sdata (bcol (sdata s))) < chi (sdata (bcol (sdata s))) <= m).
  Proof.
    destruct (cluster_cwf _ _ _ _ permR ER) as (WR & R0 & RN).
    destruct (cluster_cwf _ _ _ _ permC EC) as (WC & C0 & CN).
    destruct (leafNodes_perm (blockClusterTree adm mx tr tc)) as (l & E & P).
    exists l. split; [exact E|]. split; [apply numberOfLeafs_leafNodes, E|]. split.
    - intros i j Hi Hj.
      rewrite (Permutation_length (Permutation_filter (covers i j) P)).
      change (cnt (covers i j) (dfs_leaves (blockClusterTree adm mx tr tc)) = 1).
      unfold blockClusterTree. rewrite bsplit_count by assumption.
      unfold in_range. rewrite R0, C0, RN, CN.
      destruct (Nat.leb_spec 0 i), (Nat.ltb_spec i n), (Nat.leb_spec 0 j), (Nat.ltb_spec j m); cbn; auto; lia.
    - intros s Hs. apply (Permutation_in _ P) in Hs.
      destruct (dfs_leaves_occurs _ _ Hs) as (_ & k & Ho).
      destruct (bsplit_occurs _ _ _ _ _ Ho) as (r' & c' & f' & -> & O1 & O2 & _).
      rewrite bsplit_data. cbn [brow bcol].
      pose proof (cwf_pos (cwf_occurs O1 WR)). pose proof (cwf_pos (cwf_occurs O2 WC)).
      pose proof (cwf_occurs_range O1 WR). pose proof (cwf_occurs_range O2 WC). lia.
  Qed.

  (** What the stored admissibility flag means *)
  Lemma block_flags : forall k s, occurs k s (blockClusterTree adm mx tr tc) ->
    let d := sdata s in
    (* leaves: not flagged => one of the clusters is a leaf;
       flagged => size bound holds or one of the clusters is a leaf *)
    (isLeaf s = true ->
       (badm d = false -> isLeaf (brow d) = true \/ isLeaf (bcol d) = true) /\
       (badm d = true ->
          (tooLarge mx (csize (sdata (brow d))) = false /\ tooLarge mx (csize (sdata (bcol d))) = false)
          \/ isLeaf (brow d) = true \/ isLeaf (bcol d) = true)) /\
    (* refined nodes: not flagged, or too large *)
    (isLeaf s = false ->
       badm d = false \/ tooLarge mx (csize (sdata (brow d))) = true
       \/ tooLarge mx (csize (sdata (bcol d))) = true) /\
    (* origin of the flag: the root's own pair, or the parent's pair *)
    (k = 0 -> badm d = adm (sdata (brow d)) (sdata (bcol d))) /\
    (forall k', k = S k' -> exists q, occurs k' q (blockClusterTree adm mx tr tc) /\ In s (schildren q) /\
        In (brow d) (schildren (brow (sdata q))) /\ In (bcol d) (schildren (bcol (sdata q))) /\
        badm d = adm (sdata (brow (sdata q))) (sdata (bcol (sdata q)))).
  Proof.
    intros k s Ho d. unfold d. clear d.
    assert (Hroot := Ho).
    destruct (bsplit_occurs _ _ _ _ _ Ho) as (r' & c' & f' & Es & O1 & O2 & F0 & FS).
    assert (Ed : sdata s = BData r' c' f') by (rewrite Es; apply bsplit_data).
    rewrite !Ed. cbn [brow bcol badm].
    split; [|split; [|split]].
    - intros Hl. destruct (bsplit_cases adm mx r' c' f') as [[E Hc]|(L1 & L2 & Hc & E)].
      + split; intros Ef; subst f'; intuition congruence.
      + exfalso. rewrite Es, E in Hl. unfold isLeaf in Hl. cbn [schildren] in Hl.
        pose proof (isLeaf_false_children _ L1) as N1. pose proof (isLeaf_false_children _ L2) as N2.
        destruct (schildren r'); [contradiction|]. destruct (schildren c'); [contradiction|]. discriminate.
    - intros Hl. destruct (bsplit_cases adm mx r' c' f') as [[E Hc]|(L1 & L2 & Hc & E)].
      + rewrite Es, E in Hl. discriminate.
      + tauto.
    - intros ->. inversion O1; subst. inversion O2; subst. apply F0. reflexivity.
    - intros k' Ek. destruct (FS k' Ek) as (rp & cp & fp & Q1 & Q0 & Q2 & Q3 & Q4 & Q5 & Q6).
      exists (bsplit adm mx rp cp fp). rewrite bsplit_data. cbn [brow bcol]. auto.
  Qed.
End Level.
