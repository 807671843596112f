(** Proofs about cluster trees (C01-C05). *)
From Verif Require Import Base HMatTreeModel HMatTreeSpec.
Set Implicit Arguments.

(** ------------------------------------------------------------------ *)
(** Generic trees *)
Section StreeInd.
  Variable T : Type.
  Variable P : stree T -> Prop.
  Hypothesis H : forall d ch, (forall c, In c ch -> P c) -> P (SNode d ch).
  Fixpoint stree_ind' (t : stree T) : P t :=
    match t with
    | SNode d ch =>
      @H d ch ((fix go (l : list (stree T)) : forall c, In c l -> P c :=
        match l with
        | [] => fun c (F : In c []) => match F with end
        | x :: r => fun c (F : In c (x :: r)) =>
            match F with
            | or_introl E => match E in _ = c0 return P c0 with eq_refl => stree_ind' x end
            | or_intror F' => go r c F'
            end
        end) ch)
    end.
End StreeInd.

Lemma dfs_leaves_leaf T (t : stree T) : isLeaf t = true -> dfs_leaves t = [t].
Proof. destruct t as [d [|c ch]]; cbn; [reflexivity|discriminate]. Qed.
Lemma dfs_leaves_node T (t : stree T) :
  isLeaf t = false -> dfs_leaves t = flat_map dfs_leaves (schildren t).
Proof. destruct t as [d [|c ch]]; cbn [isLeaf schildren]; [discriminate|reflexivity]. Qed.

Lemma list_sum_app' l1 l2 : list_sum (l1 ++ l2) = list_sum l1 + list_sum l2.
Proof. induction l1 as [|a l IH]; cbn; [reflexivity|]. fold (list_sum (l ++ l2)) (list_sum l). lia. Qed.

Lemma tree_size_pos T (t : stree T) : 1 <= tree_size t.
Proof. destruct t; cbn; lia. Qed.

Lemma tree_size_eq T (t : stree T) : tree_size t = S (list_sum (map tree_size (schildren t))).
Proof. destruct t; reflexivity. Qed.

Lemma bfs_enough T : forall fuel (q acc : list (stree T)),
  list_sum (map tree_size q) <= fuel ->
  exists l, bfs fuel q acc = Some l /\ Permutation l (acc ++ flat_map dfs_leaves q).
Proof.
  induction fuel as [|k IH]; intros q acc Hf.
  - destruct q as [|t q]; cbn.
    + eexists; split; [reflexivity|]. rewrite app_nil_r. reflexivity.
    + exfalso. cbn in Hf. pose proof (tree_size_pos t). lia.
  - destruct q as [|t q]; cbn [bfs].
    + eexists; split; [reflexivity|]. cbn. rewrite app_nil_r. reflexivity.
    + cbn in Hf. fold (list_sum (map tree_size q)) in Hf.
      destruct (isLeaf t) eqn:E.
      * destruct (IH q (acc ++ [t])) as (l & E1 & P1).
        { pose proof (tree_size_pos t). lia. }
        exists l; split; [exact E1|]. rewrite P1. cbn. rewrite (dfs_leaves_leaf _ E).
        rewrite <- app_assoc. reflexivity.
      * destruct (IH (q ++ schildren t) acc) as (l & E1 & P1).
        { rewrite map_app, list_sum_app'. rewrite (tree_size_eq t) in Hf. lia. }
        exists l; split; [exact E1|]. rewrite P1. cbn. rewrite (dfs_leaves_node _ E).
        apply Permutation_app_head. rewrite flat_map_app. apply Permutation_app_comm.
Qed.

Lemma leafNodes_perm T (t : stree T) :
  exists l, leafNodes t = Some l /\ Permutation l (dfs_leaves t).
Proof.
  unfold leafNodes. destruct (@bfs_enough T (tree_size t) [t] []) as (l & E & P).
  { cbn. lia. }
  exists l. split; [exact E|]. cbn in P. rewrite app_nil_r in P. exact P.
Qed.

Lemma fold_left_sum A (f : A -> nat) l s :
  fold_left (fun res c => res + f c) l s = s + list_sum (map f l).
Proof.
  revert s; induction l as [|a l IH]; intros s; cbn [fold_left map]; [cbn; lia|].
  rewrite IH. cbn. fold (list_sum (map f l)). lia.
Qed.

Lemma numberOfLeafs_dfs T (t : stree T) : numberOfLeafs t = length (dfs_leaves t).
Proof.
  induction t as [d ch IH] using stree_ind'.
  destruct ch as [|c ch]; [reflexivity|].
  change (numberOfLeafs (SNode d (c :: ch))) with
    (fold_left (fun res x => res + numberOfLeafs x) (c :: ch) 0).
  change (dfs_leaves (SNode d (c :: ch))) with (flat_map dfs_leaves (c :: ch)).
  rewrite fold_left_sum. cbn [Nat.add].
  induction (c :: ch) as [|x l IHl]; [reflexivity|].
  cbn. fold (list_sum (map numberOfLeafs l)). rewrite app_length, IHl, IH; [reflexivity|now left|].
  intros y Hy; apply IH; now right.
Qed.

Lemma numberOfLeafs_leafNodes T (t : stree T) l :
  leafNodes t = Some l -> numberOfLeafs t = length l.
Proof.
  intros E. destruct (leafNodes_perm t) as (l' & E' & P). rewrite E in E'.
  inversion E'; subst. rewrite (Permutation_length P). apply numberOfLeafs_dfs.
Qed.

Lemma dfs_leaves_occurs T (t s : stree T) :
  In s (dfs_leaves t) -> isLeaf s = true /\ exists k, occurs k s t.
Proof.
  induction t as [d ch IH] using stree_ind'. destruct ch as [|c ch].
  - cbn. intros [<-|[]]. split; [reflexivity|]. exists 0. constructor.
  - change (dfs_leaves (SNode d (c :: ch))) with (flat_map dfs_leaves (c :: ch)).
    rewrite in_flat_map. intros (x & Hx & Hs). destruct (IH x Hx Hs) as (Hl & k & Ho).
    split; [exact Hl|]. exists (S k). econstructor; eauto.
Qed.

Lemma occurs_leaf_dfs T (t s : stree T) k :
  occurs k s t -> isLeaf s = true -> In s (dfs_leaves t).
Proof.
  induction 1 as [t|k s d ch c Hin Ho IH]; intros Hl.
  - rewrite dfs_leaves_leaf; auto. now left.
  - destruct ch as [|x ch]; [contradiction|].
    change (dfs_leaves (SNode d (x :: ch))) with (flat_map dfs_leaves (x :: ch)).
    rewrite in_flat_map. eauto.
Qed.

Lemma occurs_trans T (a b c : stree T) i j : occurs i a b -> occurs j b c -> occurs (i + j) a c.
Proof.
  intros H1 H2. revert i a H1. induction H2 as [t|k s d ch c Hin Ho IH]; intros i a H1.
  - rewrite Nat.add_0_r. exact H1.
  - rewrite Nat.add_succ_r. econstructor; eauto.
Qed.

(** ------------------------------------------------------------------ *)
(** The two-pointer loop *)
Lemma nthZ_nat s k : nthZ s (Z.of_nat k) = nth_error s k.
Proof. unfold nthZ. destruct (Z.ltb_spec (Z.of_nat k) 0); [lia|]. rewrite Nat2Z.id. reflexivity. Qed.

Lemma firstn_S_nth A (s : list A) k x : nth_error s k = Some x -> firstn (S k) s = firstn k s ++ [x].
Proof.
  revert k; induction s as [|a s IH]; intros [|k]; cbn; intros E; try discriminate.
  - inversion E; reflexivity.
  - cbn [firstn] in *. f_equal. apply IH. exact E.
Qed.

Lemma skipn_nth A (s : list A) k x : nth_error s k = Some x -> skipn k s = x :: skipn (S k) s.
Proof.
  revert k; induction s as [|a s IH]; intros [|k]; cbn; intros E; try discriminate.
  - inversion E; reflexivity.
  - apply IH in E. exact E.
Qed.

Lemma deal_inv s : forall m k fuel,
  2 * k + m = length s -> m < fuel ->
  deal fuel s (Z.of_nat k) (Z.of_nat (length s) - 1 - Z.of_nat k)
       (firstn k s) (rev (skipn (length s - k) s))
  = Some (firstn (k + (m + 1) / 2) s, rev (skipn (k + (m + 1) / 2) s)).
Proof.
  intros m. induction m as [m IH] using lt_wf_ind. intros k fuel Hlen Hf.
  destruct fuel as [|fuel]; [lia|]. cbn [deal].
  destruct m as [|[|m]].
  - destruct (Z.leb_spec (Z.of_nat k) (Z.of_nat (length s) - 1 - Z.of_nat k)); [lia|].
    cbn [Nat.div Nat.add]. change ((0 + 1) / 2) with 0. rewrite Nat.add_0_r.
    replace (length s - k) with k by lia. reflexivity.
  - destruct (Z.leb_spec (Z.of_nat k) (Z.of_nat (length s) - 1 - Z.of_nat k)); [|lia].
    destruct (Z.eqb_spec (Z.of_nat k) (Z.of_nat (length s) - 1 - Z.of_nat k)); [|lia].
    rewrite nthZ_nat. destruct (nth_error s k) as [x|] eqn:Ex.
    2:{ apply nth_error_None in Ex. lia. }
    destruct fuel as [|fuel]; [lia|]. cbn [deal].
    destruct (Z.leb_spec (Z.of_nat k + 1) (Z.of_nat (length s) - 1 - Z.of_nat k - 1)); [lia|].
    change ((1 + 1) / 2) with 1. replace (k + 1) with (S k) by lia.
    rewrite (firstn_S_nth _ _ Ex). replace (length s - k) with (S k) by lia. reflexivity.
  - destruct (Z.leb_spec (Z.of_nat k) (Z.of_nat (length s) - 1 - Z.of_nat k)); [|lia].
    destruct (Z.eqb_spec (Z.of_nat k) (Z.of_nat (length s) - 1 - Z.of_nat k)); [lia|].
    rewrite nthZ_nat.
    replace (Z.of_nat (length s) - 1 - Z.of_nat k)%Z with (Z.of_nat (length s - 1 - k)) by lia.
    rewrite nthZ_nat.
    destruct (nth_error s k) as [x|] eqn:Ex.
    2:{ apply nth_error_None in Ex. lia. }
    destruct (nth_error s (length s - 1 - k)) as [y|] eqn:Ey.
    2:{ apply nth_error_None in Ey. lia. }
    replace (Z.of_nat k + 1)%Z with (Z.of_nat (S k)) by lia.
    replace (Z.of_nat (length s - 1 - k) - 1)%Z with (Z.of_nat (length s) - 1 - Z.of_nat (S k))%Z by lia.
    rewrite <- (firstn_S_nth _ _ Ex).
    replace (rev (skipn (length s - k) s) ++ [y]) with (rev (skipn (length s - S k) s)).
    2:{ replace (length s - S k) with (length s - 1 - k) by lia.
        rewrite (skipn_nth _ _ Ey). cbn [rev].
        replace (S (length s - 1 - k)) with (length s - k) by lia. reflexivity. }
    rewrite (IH m) by lia.
    replace (S (S m) + 1) with (m + 1 + 1 * 2) by lia.
    rewrite Nat.div_add by lia.
    replace (S k + (m + 1) / 2) with (k + ((m + 1) / 2 + 1)) by lia. reflexivity.
Qed.

Lemma deal_spec s :
  deal (S (length s)) s 0 (Z.of_nat (length s) - 1) [] []
  = Some (firstn ((length s + 1) / 2) s, rev (skipn ((length s + 1) / 2) s)).
Proof.
  pose proof (@deal_inv s (length s) 0 (S (length s))) as H.
  rewrite Nat.sub_0_r, skipn_all in H. cbn [Z.of_nat firstn rev] in H.
  rewrite Z.sub_0_r in H. cbn [Nat.add] in H. apply H; lia.
Qed.

(** ------------------------------------------------------------------ *)
(** writeLeaf *)
Definition disjoint_write (ord : list nat) (a : nat) (p p' : dofperm) : Prop :=
  length (o2h p') = length (o2h p) /\ length (h2o p') = length (h2o p) /\
  (forall k x, nth_error ord k = Some x ->
     nth_error (h2o p') (a + k) = Some x /\ nth_error (o2h p') x = Some (a + k)) /\
  (forall i, ~ (a <= i < a + length ord) -> nth_error (h2o p') i = nth_error (h2o p) i) /\
  (forall x, ~ In x ord -> nth_error (o2h p') x = nth_error (o2h p) x).

Lemma writeLeaf_ok : forall idx a p,
  NoDup idx -> (forall x, In x idx -> x < length (o2h p)) ->
  a + length idx <= length (h2o p) ->
  exists p', writeLeaf (length idx) idx a p = Some p' /\ disjoint_write idx a p p'.
Proof.
  induction idx as [|x idx IH]; intros a p Hnd Hin Hlen.
  - cbn. exists p; split; [reflexivity|]. unfold disjoint_write. repeat split; auto.
    + destruct k; discriminate.
    + destruct k; discriminate.
  - inversion Hnd as [|? ? Hx Hnd']; subst. cbn [length] in Hlen. cbn [writeLeaf length].
    unfold addDofIndexPair.
    destruct (@upd_Some _ (o2h p) x a) as [l1 E1]; [apply Hin; now left|].
    destruct (@upd_Some _ (h2o p) a x) as [l2 E2]; [lia|].
    rewrite E1, E2.
    set (p1 := {| o2h := l1; h2o := l2 |}).
    destruct (IH (S a) p1) as (p' & E & W).
    { exact Hnd'. }
    { intros y Hy. cbn. rewrite (upd_length _ _ _ E1). apply Hin. now right. }
    { cbn. rewrite (upd_length _ _ _ E2). lia. }
    exists p'; split; [exact E|].
    destruct W as (L1 & L2 & Wv & Wh & Wo). cbn in L1, L2, Wh, Wo.
    unfold disjoint_write. rewrite L1, L2, (upd_length _ _ _ E1), (upd_length _ _ _ E2).
    split; [reflexivity|]. split; [reflexivity|]. split; [|split].
    + intros [|k] y; cbn [nth_error]; intros Ey.
      * inversion Ey; subst y. rewrite Nat.add_0_r.
        rewrite Wh by lia. rewrite Wo by exact Hx.
        rewrite (upd_nth_error _ _ _ a E2), (upd_nth_error _ _ _ x E1), !Nat.eqb_refl. auto.
      * replace (a + S k) with (S a + k) by lia. apply Wv. exact Ey.
    + intros i Hi. cbn [length] in Hi. rewrite Wh by lia.
      rewrite (upd_nth_error _ _ _ i E2). destruct (Nat.eqb_spec i a); [lia|reflexivity].
    + intros y Hy. rewrite Wo by (intros C; apply Hy; now right).
      rewrite (upd_nth_error _ _ _ y E1). destruct (Nat.eqb_spec y x); [|reflexivity].
      subst. exfalso. apply Hy. now left.
Qed.

Lemma disjoint_write_app o1 o2 a p p1 p2 :
  disjoint_write o1 a p p1 -> disjoint_write o2 (a + length o1) p1 p2 ->
  NoDup (o1 ++ o2) -> disjoint_write (o1 ++ o2) a p p2.
Proof.
  intros (A1 & A2 & A3 & A4 & A5) (B1 & B2 & B3 & B4 & B5) Hnd.
  unfold disjoint_write. split; [congruence|]. split; [congruence|].
  rewrite app_length. split; [|split].
  - intros k x Hk. destruct (Nat.lt_ge_cases k (length o1)) as [Hlt|Hge].
    + rewrite nth_error_app1 in Hk by lia. destruct (A3 _ _ Hk) as [U V].
      rewrite B4 by lia. rewrite B5; [auto|].
      destruct (NoDup_app_inv _ _ Hnd) as (_ & _ & D). apply D.
      eapply nth_error_In; eauto.
    + rewrite nth_error_app2 in Hk by lia. destruct (B3 _ _ Hk) as [U V].
      replace (a + length o1 + (k - length o1)) with (a + k) in U, V by lia. auto.
  - intros i Hi. rewrite B4 by lia. apply A4. lia.
  - intros x Hx. rewrite in_app_iff in Hx. rewrite B5 by tauto. apply A5. tauto.
Qed.

(** ------------------------------------------------------------------ *)
(** What [split] builds, as a relation *)
Section Cluster.
  Variable G : Type.
  Variable geom : list nat -> G.
  Variable sortf : G -> list nat -> list nat.
  Hypothesis sort_perm : forall g l, Permutation (sortf g l) l.

  Inductive built (mbs : Z) : nat -> list nat -> stree (cdata G) -> list nat -> Prop :=
  | built_leaf : forall a idx, 0 < length idx ->
      tooSmall (length idx) mbs = true \/ length idx = 1 ->
      built mbs a idx (SNode (CData a (a + length idx) (geom idx)) []) idx
  | built_node : forall a idx first second t1 t2 o1 o2,
      tooSmall (length idx) mbs = false ->
      Permutation (first ++ second) idx ->
      0 < length first -> 0 < length second ->
      length first = (length idx + 1) / 2 ->
      built mbs a first t1 o1 -> built mbs (a + length first) second t2 o2 ->
      built mbs a idx (SNode (CData a (a + length idx) (geom idx)) [t1; t2]) (o1 ++ o2).

  Lemma built_perm mbs a idx t o : built mbs a idx t o -> Permutation o idx.
  Proof.
    induction 1 as [|a idx f s t1 t2 o1 o2 _ Hp _ _ _ _ IH1 _ IH2]; [reflexivity|].
    rewrite IH1, IH2. exact Hp.
  Qed.

  Lemma split_ok mbs : forall fuel a idx p,
    length idx < fuel -> 0 < length idx -> NoDup idx ->
    (forall x, In x idx -> x < length (o2h p)) -> a + length idx <= length (h2o p) ->
    exists t p' o, split geom sortf fuel mbs a (a + length idx) (geom idx) idx p = Some (t, p')
      /\ built mbs a idx t o /\ disjoint_write o a p p'.
  Proof.
    induction fuel as [|fuel IH]; intros a idx p Hf Hpos Hnd Hin Hlen; [lia|].
    cbn [split]. replace (a + length idx - a) with (length idx) by lia.
    destruct (writeLeaf_ok a p Hnd Hin Hlen) as (pl & El & Wl). rewrite El.
    destruct (tooSmall (length idx) mbs) eqn:Es.
    { exists (SNode (CData a (a + length idx) (geom idx)) []), pl, idx.
      split; [reflexivity|]. split; [constructor; auto|exact Wl]. }
    rewrite deal_spec. cbv zeta.
    set (s := sortf (geom idx) idx).
    assert (Hsp : Permutation s idx) by apply sort_perm.
    assert (Hsl : length s = length idx) by (apply Permutation_length, Hsp).
    set (h := (length s + 1) / 2).
    assert (Hh : 1 <= h <= length s).
    { unfold h. rewrite Hsl. split.
      - apply Nat.div_le_lower_bound; lia.
      - apply Nat.div_le_upper_bound; lia. }
    assert (Hff : length (firstn h s) = h) by (apply firstn_length_le; lia).
    assert (Hss : length (rev (skipn h s)) = length s - h) by (rewrite rev_length, skipn_length; reflexivity).
    destruct (Nat.eqb_spec (length (firstn h s)) 0) as [E0|_]; [lia|]. cbn [orb].
    destruct (Nat.eqb_spec (length (rev (skipn h s))) 0) as [E0|Hne].
    { exists (SNode (CData a (a + length idx) (geom idx)) []), pl, idx.
      split; [reflexivity|]. split; [|exact Wl]. constructor; auto. right. rewrite Hss in E0.
      assert (E1 : length s = h) by lia. unfold h in E1.
      assert (2 * length s <= length s + 1).
      { rewrite E1 at 1. apply Nat.mul_div_le. lia. }
      lia. }
    assert (Hperm : Permutation (firstn h s ++ rev (skipn h s)) idx).
    { rewrite <- Hsp. rewrite <- Permutation_rev, firstn_skipn. reflexivity. }
    assert (Hnd2 : NoDup (firstn h s ++ rev (skipn h s)))
      by (eapply Permutation_NoDup; [symmetry; exact Hperm|exact Hnd]).
    destruct (NoDup_app_inv _ _ Hnd2) as (Hnd_f & Hnd_s & Hdis).
    assert (Hin2 : forall x, In x (firstn h s ++ rev (skipn h s)) -> x < length (o2h p)).
    { intros x Hx. apply Hin. eapply Permutation_in; [exact Hperm|exact Hx]. }
    assert (Hlt : h < length s) by lia.
    destruct (IH a (firstn h s) p) as (t1 & p1 & o1 & E1 & B1 & W1).
    { lia. } { lia. } { exact Hnd_f. }
    { intros x Hx. apply Hin2. rewrite in_app_iff. tauto. }
    { lia. }
    rewrite Hff in E1 |- *. rewrite E1.
    pose proof W1 as (L1 & L2 & _).
    destruct (IH (a + h) (rev (skipn h s)) p1) as (t2 & p2 & o2 & E2 & B2 & W2).
    { lia. } { lia. } { exact Hnd_s. }
    { intros x Hx. rewrite L1. apply Hin2. rewrite in_app_iff. tauto. }
    { lia. }
    replace (a + h + length (rev (skipn h s))) with (a + length idx) in E2 by lia.
    rewrite E2.
    exists (SNode (CData a (a + length idx) (geom idx)) [t1; t2]), p2, (o1 ++ o2).
    split; [reflexivity|]. split.
    - econstructor; eauto; try lia.
      + unfold h in *. rewrite Hff, Hsl. reflexivity.
      + rewrite Hff. exact B2.
    - apply disjoint_write_app with p1; auto.
      + assert (Hl1 : length o1 = h).
        { rewrite (Permutation_length (built_perm B1)). exact Hff. }
        rewrite Hl1. exact W2.
      + eapply Permutation_NoDup; [|exact Hnd2].
        rewrite (built_perm B1), (built_perm B2). reflexivity.
  Qed.

  Lemma clusterTree_ok n mbs : 0 < n ->
    exists t p o, clusterTree geom sortf n mbs = Some (t, p)
      /\ built mbs 0 (seq 0 n) t o
      /\ Permutation o (seq 0 n)
      /\ length (o2h p) = n /\ h2o p = o
      /\ (forall k x, nth_error o k = Some x -> nth_error (o2h p) x = Some k).
  Proof.
    intros Hn. unfold clusterTree, fillIndexRange.
    destruct (Nat.eqb_spec n 0) as [|_]; [lia|]. rewrite Nat.sub_0_r.
    assert (HL : length (seq 0 n) = n) by apply seq_length.
    destruct (@split_ok mbs (S n) 0 (seq 0 n) (dofperm_init n)) as (t & p & o & E & B & W);
      rewrite ?HL; cbn [dofperm_init o2h h2o]; rewrite ?repeat_length; try lia.
    { apply seq_NoDup. }
    { intros x Hx. apply in_seq in Hx. lia. }
    rewrite HL in E. exists t, p, o. split; [exact E|]. split; [exact B|].
    pose proof (built_perm B) as P. split; [exact P|].
    destruct W as (L1 & L2 & Wv & _). cbn [dofperm_init o2h h2o] in L1, L2.
    rewrite repeat_length in L1, L2. split; [exact L1|]. split.
    - apply nth_error_ext. intros k.
      destruct (nth_error o k) as [x|] eqn:Ex.
      + apply (Wv k x Ex).
      + apply nth_error_None in Ex. apply nth_error_None.
        rewrite (Permutation_length P), HL in Ex. lia.
    - intros k x Ex. apply (Wv k x Ex).
  Qed.


  Lemma built_data mbs a idx t o : built mbs a idx t o ->
    sdata t = CData a (a + length idx) (geom idx) /\ 0 < length idx.
  Proof.
    destruct 1 as [a idx Hpos|a idx f s t1 t2 o1 o2 _ Hp Hf Hs]; cbn; auto.
    split; [reflexivity|]. rewrite <- (Permutation_length Hp), app_length. lia.
  Qed.

  Lemma built_occurs mbs a idx t o : built mbs a idx t o ->
    forall k s, occurs k s t ->
    exists a' idx' o' pre post, built mbs a' idx' s o' /\ o = pre ++ o' ++ post
      /\ a' = a + length pre
      /\ length idx' * 2 ^ k < length idx + 2 ^ k /\ length idx < (length idx' + 1) * 2 ^ k.
  Proof.
    induction 1 as [a idx Hpos Hs|a idx f s t1 t2 o1 o2 Hts Hp Hf Hs Hh B1 IH1 B2 IH2];
      intros k x Ho.
    - inversion Ho as [|k' ? ? ? c Hc Ho']; subst; [|contradiction].
      exists a, idx, idx, [], []. rewrite app_nil_r. cbn [length app Nat.pow].
      repeat split; try lia. constructor; auto.
    - inversion Ho as [|k' ? ? ? c Hc Ho']; subst.
      + exists a, idx, (o1 ++ o2), [], []. rewrite app_nil_r. cbn [length app Nat.pow].
        repeat split; try lia. econstructor; eauto.
      + pose proof (Permutation_length Hp) as HL. rewrite app_length in HL.
        assert (Hdiv : 2 * ((length idx + 1) / 2) <= length idx + 1) by (apply Nat.mul_div_le; lia).
        assert (Hdiv2 : length idx + 1 < 2 * S ((length idx + 1) / 2)) by (apply Nat.mul_succ_div_gt; lia).
        destruct Hc as [<-|[<-|[]]].
        * destruct (IH1 _ _ Ho') as (a' & idx' & o' & pre & post & B & E & Ea & S1 & S2).
          exists a', idx', o', pre, (post ++ o2). split; [exact B|].
          split; [rewrite E, <- !app_assoc; reflexivity|]. split; [exact Ea|].
          rewrite Nat.pow_succ_r'. split; nia.
        * destruct (IH2 _ _ Ho') as (a' & idx' & o' & pre & post & B & E & Ea & S1 & S2).
          exists a', idx', o', (o1 ++ pre), post. split; [exact B|].
          split; [rewrite E, <- !app_assoc; reflexivity|].
          rewrite app_length, (Permutation_length (built_perm B1)).
          split; [lia|]. rewrite Nat.pow_succ_r'. split; nia.
  Qed.

  Lemma built_leaves_tile mbs a idx t o : built mbs a idx t o ->
    flat_map (fun l => seq (clo (sdata l)) (chi (sdata l) - clo (sdata l))) (dfs_leaves t)
    = seq a (length idx).
  Proof.
    induction 1 as [a idx Hpos Hs|a idx f s t1 t2 o1 o2 Hts Hp Hf Hs Hh B1 IH1 B2 IH2].
    - cbn. rewrite app_nil_r. f_equal. lia.
    - change (dfs_leaves (SNode (CData a (a + length idx) (geom idx)) [t1; t2]))
        with (dfs_leaves t1 ++ dfs_leaves t2 ++ []).
      rewrite app_nil_r, flat_map_app, IH1, IH2, <- seq_app.
      rewrite <- (Permutation_length Hp), app_length. reflexivity.
  Qed.

  Lemma built_children mbs a idx t o : built mbs a idx t o ->
    schildren t = [] \/ exists l r, schildren t = [l; r] /\
      clo (sdata l) = clo (sdata t) /\ chi (sdata l) = clo (sdata r) /\
      chi (sdata r) = chi (sdata t) /\ clo (sdata l) < chi (sdata l) /\
      clo (sdata r) < chi (sdata r) /\
      (size_of l = size_of r \/ size_of l = size_of r + 1).
  Proof.
    destruct 1 as [a idx Hpos Hs|a idx f s t1 t2 o1 o2 Hts Hp Hf Hs Hh B1 B2]; [now left|].
    right. exists t1, t2. destruct (built_data B1) as [D1 _]. destruct (built_data B2) as [D2 _].
    unfold size_of. cbn [sdata schildren]. rewrite D1, D2. cbn [clo chi].
    pose proof (Permutation_length Hp) as HL. rewrite app_length in HL.
    assert (Hdiv : 2 * ((length idx + 1) / 2) <= length idx + 1) by (apply Nat.mul_div_le; lia).
    assert (Hdiv2 : length idx + 1 < 2 * S ((length idx + 1) / 2)) by (apply Nat.mul_succ_div_gt; lia).
    repeat split; try lia.
  Qed.

  Lemma built_leaf_size mbs a idx t o : built mbs a idx t o -> isLeaf t = true ->
    tooSmall (length idx) mbs = true \/ length idx = 1.
  Proof. destruct 1; auto. discriminate. Qed.
  Lemma built_node_size mbs a idx t o : built mbs a idx t o -> isLeaf t = false ->
    tooSmall (length idx) mbs = false.
  Proof. destruct 1; auto. discriminate. Qed.

  (** ---- property level ---- *)
  Lemma cluster_ranges n mbs : 0 < n ->
    exists t p, clusterTree geom sortf n mbs = Some (t, p)
      /\ clo (sdata t) = 0 /\ chi (sdata t) = n
      /\ (forall k s, occurs k s t ->
           schildren s = [] \/ exists l r, schildren s = [l; r] /\
             clo (sdata l) = clo (sdata s) /\ chi (sdata l) = clo (sdata r) /\
             chi (sdata r) = chi (sdata s) /\
             clo (sdata l) < chi (sdata l) /\ clo (sdata r) < chi (sdata r))
      /\ flat_map (fun l => seq (clo (sdata l)) (chi (sdata l) - clo (sdata l))) (dfs_leaves t)
         = seq 0 n.
  Proof.
    intros Hn. destruct (clusterTree_ok mbs Hn) as (t & p & o & E & B & _).
    exists t, p. split; [exact E|]. destruct (built_data B) as [D _].
    rewrite D. cbn [clo chi]. rewrite seq_length. split; [reflexivity|]. split; [reflexivity|].
    split.
    - intros k s Ho. destruct (built_occurs B Ho) as (a' & idx' & o' & pre & post & B' & _).
      destruct (built_children B') as [?|(l & r & H)]; [now left|right].
      exists l, r. tauto.
    - rewrite (built_leaves_tile B), seq_length. reflexivity.
  Qed.

  Lemma cluster_perm_bij n mbs t p : clusterTree geom sortf n mbs = Some (t, p) ->
    (forall i, i < n -> exists h, h < n /\ mapOriginalDofToHMatDof p i = Some h
                                 /\ mapHMatDofToOriginalDof p h = Some i)
    /\ (forall h, h < n -> exists i, i < n /\ mapHMatDofToOriginalDof p h = Some i
                                 /\ mapOriginalDofToHMatDof p i = Some h)
    /\ (forall k s, occurs k s t ->
          exists l, cgeo (sdata s) = geom l /\ NoDup l /\
            forall i, In i l <-> exists h, clo (sdata s) <= h < chi (sdata s)
                                       /\ mapHMatDofToOriginalDof p h = Some i).
  Proof.
    intros E0. assert (Hn : 0 < n).
    { unfold clusterTree in E0. destruct (Nat.eqb_spec n 0); [discriminate|lia]. }
    destruct (clusterTree_ok mbs Hn) as (t' & p' & o & E & B & P & L & Eo & Inv).
    rewrite E in E0. inversion E0; subst t' p'. clear E0.
    unfold mapOriginalDofToHMatDof, mapHMatDofToOriginalDof. rewrite Eo.
    assert (Lo : length o = n) by (rewrite (Permutation_length P), seq_length; reflexivity).
    assert (Hb : forall h, h < n -> exists i, i < n /\ nth_error o h = Some i).
    { intros h Hh. destruct (nth_error o h) as [i|] eqn:Ei.
      - exists i. split; [|reflexivity]. apply nth_error_In in Ei.
        apply (Permutation_in _ P) in Ei. apply in_seq in Ei. lia.
      - apply nth_error_None in Ei. lia. }
    split; [|split].
    - intros i Hi. assert (Hin : In i o).
      { apply (Permutation_in _ (Permutation_sym P)), in_seq. lia. }
      apply In_nth_error in Hin. destruct Hin as [h Eh]. exists h.
      pose proof (Inv _ _ Eh). repeat split; auto.
      rewrite <- Lo. apply nth_error_Some. congruence.
    - intros h Hh. destruct (Hb h Hh) as (i & Hi & Ei). exists i. auto.
    - intros k s Ho. destruct (built_occurs B Ho) as (a' & idx' & o' & pre & post & B' & Eq & Ea & _).
      destruct (built_data B') as [D Hpos]. rewrite D. cbn [clo chi cgeo].
      exists idx'. split; [reflexivity|].
      assert (Lo' : length o' = length idx') by apply (Permutation_length (built_perm B')).
      split.
      + eapply Permutation_NoDup; [exact (built_perm B')|].
        assert (Hnd : NoDup o) by (eapply Permutation_NoDup; [symmetry; exact P|apply seq_NoDup]).
        rewrite Eq in Hnd. destruct (NoDup_app_inv _ _ Hnd) as (_ & Hnd2 & _).
        destruct (NoDup_app_inv _ _ Hnd2) as (Hnd3 & _). exact Hnd3.
      + intros i. split.
        * intros Hi. apply (Permutation_in _ (Permutation_sym (built_perm B'))) in Hi.
          apply In_nth_error in Hi. destruct Hi as [q Eq']. 
          assert (Hq : q < length o') by (apply nth_error_Some; congruence).
          exists (a' + q). split; [lia|]. rewrite Eq, Ea. cbn [Nat.add].
          rewrite nth_error_app2 by lia. rewrite nth_error_app1 by lia.
          rewrite <- Eq'. f_equal. lia.
        * intros (h & Hh & Eh). apply (Permutation_in _ (built_perm B')).
          apply (nth_error_In _ (h - a')). rewrite <- Eh, Eq.
          rewrite nth_error_app2 by lia. rewrite nth_error_app1 by lia. f_equal. lia.
  Qed.

  Lemma tooSmall_pos size mbs : (1 <= mbs < 2 ^ 64)%Z ->
    tooSmall size mbs = true <-> (Z.of_nat size <= mbs)%Z.
  Proof.
    intros Hm. unfold tooSmall. rewrite Z.mod_small by lia. apply Z.leb_le.
  Qed.

  Lemma cluster_sizes n mbs t p : (1 <= mbs < 2 ^ 31)%Z ->
    clusterTree geom sortf n mbs = Some (t, p) ->
    (forall k s, occurs k s t ->
       (Z.of_nat (size_of s) <= mbs)%Z <-> isLeaf s = true)
    /\ (forall k s, occurs k s t -> forall l r, schildren s = [l; r] ->
          size_of l = size_of r \/ size_of l = size_of r + 1)
    /\ (forall k s, occurs k s t ->
          size_of s * 2 ^ k < n + 2 ^ k /\ n < (size_of s + 1) * 2 ^ k /\ 2 ^ k < n + n).
  Proof.
    intros Hm E0. assert (Hn : 0 < n).
    { unfold clusterTree in E0. destruct (Nat.eqb_spec n 0); [discriminate|lia]. }
    destruct (clusterTree_ok mbs Hn) as (t' & p' & o & E & B & P & L & Eo & Inv).
    rewrite E in E0. inversion E0; subst t' p'. clear E0.
    assert (Sz : forall a' idx' s o', built mbs a' idx' s o' -> size_of s = length idx').
    { intros a' idx' s o' B'. unfold size_of. destruct (built_data B') as [D _]. rewrite D. cbn. lia. }
    split; [|split].
    - intros k s Ho. destruct (built_occurs B Ho) as (a' & idx' & o' & pre & post & B' & _).
      rewrite (Sz _ _ _ _ B'). rewrite <- (tooSmall_pos (length idx')) by lia.
      destruct (isLeaf s) eqn:El.
      + split; auto. intros _. destruct (built_leaf_size B' El) as [|E1]; auto.
        rewrite tooSmall_pos by lia. lia.
      + rewrite (built_node_size B' El). split; discriminate.
    - intros k s Ho l r Hch. destruct (built_occurs B Ho) as (a' & idx' & o' & pre & post & B' & _).
      destruct (built_children B') as [E1|(l' & r' & E1 & H)]; rewrite E1 in Hch; [discriminate|].
      inversion Hch; subst. tauto.
    - intros k s Ho. destruct (built_occurs B Ho) as (a' & idx' & o' & pre & post & B' & _ & _ & S1 & S2).
      rewrite (Sz _ _ _ _ B'). rewrite seq_length in S1, S2. split; [exact S1|]. split; [exact S2|].
      destruct (built_data B') as [_ Hpos].
      destruct k as [|k]; [cbn; lia|].
      (* the parent has at least two dofs *)
      assert (Hpar : exists q, occurs k q t /\ In s (schildren q)).
      { clear - Ho. remember (S k) as m eqn:Em. revert k Em.
        induction Ho as [t|m s d ch c Hin Ho IH]; intros k Em; [discriminate|].
        inversion Em; subst m. destruct k as [|k].
        - inversion Ho; subst. exists (SNode d ch). split; [constructor|exact Hin].
        - destruct (IH k eq_refl) as (q & Oq & Iq). exists q. split; [|exact Iq].
          econstructor; eauto. }
      destruct Hpar as (q & Oq & Iq).
      destruct (built_occurs B Oq) as (a2 & idx2 & o2 & pre2 & post2 & B2 & _ & _ & T1 & T2).
      rewrite seq_length in T1, T2.
      assert (2 <= length idx2).
      { destruct B2 as [|a2 idx2 f s2 t1 t2 o1 o2' Hts Hp2 Hf Hs Hh]; [contradiction|].
        rewrite <- (Permutation_length Hp2), app_length. lia. }
      rewrite Nat.pow_succ_r'. nia.
  Qed.
End Cluster.
