From Coq Require Import Sorted.
From Verif Require Import Base SegModel SegSpec SegProofs AsmModel AsmSpec SpaceModel SpaceSpec.
Set Implicit Arguments.
Local Open Scope Z_scope.

(** ---- vectors ---- *)
Arguments zget : simpl never. Arguments zset : simpl never. Arguments contains : simpl never.
Lemma zget_lt A (l : list A) i a : zget l i = Some a -> 0 <= i < Z.of_nat (length l).
Proof.
  unfold zget. destruct (i <? 0) eqn:E; [discriminate|]. apply Z.ltb_ge in E. intro H.
  assert (Z.to_nat i < length l)%nat by (apply nth_error_Some; congruence). lia.
Qed.
Lemma zget_Some A (l : list A) i : 0 <= i < Z.of_nat (length l) -> exists a, zget l i = Some a.
Proof.
  intro H. unfold zget. destruct (Z.ltb_spec i 0); [lia|].
  destruct (nth_error l (Z.to_nat i)) eqn:E; [eauto|]. apply nth_error_None in E. lia.
Qed.
Lemma zget_nat A (l : list A) k : zget l (Z.of_nat k) = nth_error l k.
Proof. unfold zget. destruct (Z.ltb_spec (Z.of_nat k) 0); [lia|]. now rewrite Nat2Z.id. Qed.
Lemma zset_Some A (l : list A) i v : 0 <= i < Z.of_nat (length l) -> exists l', zset l i v = Some l'.
Proof. intro H. unfold zset. destruct (Z.ltb_spec i 0); [lia|]. apply upd_Some. lia. Qed.
Arguments zget_Some {A} l i _. Arguments zset_Some {A} l i v _.
Lemma zset_length A (l l' : list A) i v : zset l i v = Some l' -> length l' = length l.
Proof. unfold zset. destruct (i <? 0); [discriminate|]. apply upd_length. Qed.
Lemma zset_lt A (l l' : list A) i v : zset l i v = Some l' -> 0 <= i < Z.of_nat (length l).
Proof. unfold zset. destruct (Z.ltb_spec i 0); [discriminate|]. intro U. apply upd_lt in U. lia. Qed.
Lemma zset_get A (l l' : list A) i v k : zset l i v = Some l' -> zget l' k = if k =? i then Some v else zget l k.
Proof.
  intro H. pose proof (zset_lt _ _ _ H) as L. unfold zset in H. destruct (Z.ltb_spec i 0); [discriminate|].
  unfold zget. destruct (Z.ltb_spec k 0).
  - destruct (Z.eqb_spec k i); [lia|reflexivity].
  - pose proof (upd_nth_error _ _ _ (Z.to_nat k) H) as E. rewrite E.
    destruct (Z.eqb_spec k i) as [->|N]; [now rewrite Nat.eqb_refl|].
    destruct (Nat.eqb_spec (Z.to_nat k) (Z.to_nat i)); [lia|reflexivity].
Qed.
Lemma oseq_map A B (f : A -> option B) (F : A -> B) l : (forall x, In x l -> f x = Some (F x)) ->
  oseq (map f l) = Some (map F l).
Proof.
  induction l as [|a l IH]; cbn; [reflexivity|]. intro H. rewrite (H a) by now left. cbn.
  rewrite IH by (intros; apply H; now right). reflexivity.
Qed.

(** ---- positions of a dof in a dof list ---- *)
Fixpoint positions (e : Z) (i : nat) (dofs : list Z) (d : Z) : list ldof :=
  match dofs with
  | [] => []
  | x :: r => (if x =? d then [(e, i)] else []) ++ positions e (S i) r d
  end.
Lemma in_positions e d : forall dofs i e' j,
  In (e', j) (positions e i dofs d) <-> e' = e /\ exists k, j = (i + k)%nat /\ nth_error dofs k = Some d.
Proof.
  induction dofs as [|x r IH]; intros i e' j; cbn.
  - split; [tauto|]. intros (-> & k & -> & H). destruct k; discriminate.
  - rewrite in_app_iff, IH. split.
    + intros [H|(-> & k & -> & H)].
      * destruct (Z.eqb_spec x d) as [->|]; cbn in H; [|tauto]. destruct H as [H|[]].
        injection H as <- <-. split; [reflexivity|]. exists 0%nat. split; [lia|reflexivity].
      * split; [reflexivity|]. exists (S k). split; [lia|exact H].
    + intros (-> & [|k] & -> & H); cbn in H.
      * injection H as ->. left. rewrite Z.eqb_refl. left. f_equal. lia.
      * right. split; [reflexivity|]. exists k. split; [lia|exact H].
Qed.
Lemma positions_NoDup e d : forall dofs i, NoDup (positions e i dofs d).
Proof.
  induction dofs as [|x r IH]; intro i; cbn; [constructor|].
  destruct (x =? d); cbn; [|apply IH]. constructor; [|apply IH].
  rewrite in_positions. intros (_ & k & H & _). lia.
Qed.
Lemma pushDofs_spec e : forall dofs i g2l, (forall d, In d dofs -> d < Z.of_nat (length g2l)) ->
  exists g', pushDofs e i dofs g2l = Some g' /\ length g' = length g2l /\
  forall k l, nth_error g2l k = Some l -> nth_error g' k = Some (l ++ positions e i dofs (Z.of_nat k)).
Proof.
  induction dofs as [|x r IH]; intros i g2l H; cbn.
  - eexists. repeat split. intros k l E. now rewrite app_nil_r.
  - destruct (Z.leb_spec 0 x).
    + unfold zpush. destruct (zget_Some g2l x) as (q & Eq); [split; [lia|apply H; now left]|].
      rewrite Eq. cbn. destruct (zset_Some g2l x (q ++ [(e, i)])) as (g1 & E1); [split; [lia|apply H; now left]|].
      rewrite E1. cbn. destruct (IH (S i) g1) as (g' & E & L & P).
      { intros d I. rewrite (zset_length _ _ _ E1). apply H. now right. }
      exists g'. split; [exact E|]. split; [rewrite L; apply (zset_length _ _ _ E1)|].
      intros k l Ek. pose proof (zset_get _ _ _ (Z.of_nat k) E1) as G. rewrite !zget_nat in G.
      destruct (Z.eqb_spec (Z.of_nat k) x) as [<-|N].
      * rewrite zget_nat in Eq. rewrite Ek in Eq. injection Eq as <-. rewrite (P _ _ G), Z.eqb_refl.
        now rewrite <- app_assoc.
      * rewrite Ek in G. rewrite (P _ _ G). destruct (Z.eqb_spec x (Z.of_nat k)); [lia|]. reflexivity.
    + destruct (IH (S i) g2l) as (g' & E & L & P). { intros d I. apply H. now right. }
      exists g'. split; [exact E|]. split; [exact L|]. intros k l Ek. rewrite (P _ _ Ek).
      destruct (Z.eqb_spec x (Z.of_nat k)); [lia|]. reflexivity.
Qed.

Section Loop.
Context {K : star_ring}.
Variables (dofsOf : selt -> option (list Z)) (wOf : selt -> option (list K)).
Variables (D : selt -> list Z) (W : selt -> list K).

Lemma elementLoop_spec : forall es l2g w g2l,
  (forall e, In e es -> dofsOf e = Some (D e) /\ wOf e = Some (W e)) ->
  NoDup (map s_index es) ->
  (forall e, In e es -> 0 <= s_index e < Z.of_nat (length l2g)) -> length w = length l2g ->
  (forall e d, In e es -> In d (D e) -> d < Z.of_nat (length g2l)) ->
  exists l2g' w' g2l', elementLoop dofsOf wOf es l2g w g2l = Some (l2g', w', g2l') /\
    length l2g' = length l2g /\ length w' = length w /\ length g2l' = length g2l /\
    (forall e, In e es -> zget l2g' (s_index e) = Some (D e) /\ zget w' (s_index e) = Some (W e)) /\
    (forall k, ~ In k (map s_index es) -> zget l2g' k = zget l2g k /\ zget w' k = zget w k) /\
    (forall k l, nth_error g2l k = Some l ->
       nth_error g2l' k = Some (l ++ flat_map (fun e => positions (s_index e) 0 (D e) (Z.of_nat k)) es)).
Proof.
  induction es as [|e es IH]; intros l2g w g2l HD ND HR HW HG; cbn.
  - exists l2g, w, g2l. repeat split; try easy. intros k l E. now rewrite app_nil_r.
  - destruct (HD e) as (E1 & E2); [now left|]. rewrite E1. cbn. rewrite E2. cbn.
    destruct (zset_Some l2g (s_index e) (D e)) as (l1 & Z1); [apply HR; now left|]. rewrite Z1. cbn.
    destruct (zset_Some w (s_index e) (W e)) as (w1 & Z2); [rewrite HW; apply HR; now left|]. rewrite Z2. cbn.
    destruct (pushDofs_spec (s_index e) (D e) 0 g2l) as (g1 & Z3 & L3 & P3).
    { intros d I. apply (HG e); [now left|exact I]. }
    rewrite Z3. cbn.
    cbn in ND. apply NoDup_cons_iff in ND as (NI & ND).
    pose proof (zset_length _ _ _ Z1) as L1. pose proof (zset_length _ _ _ Z2) as L2.
    destruct (IH l1 w1 g1) as (l2 & w2 & g2 & R & A1 & A2 & A3 & A4 & A5 & A6).
    + intros; apply HD; now right.
    + exact ND.
    + intros e' I. rewrite L1. apply HR. now right.
    + congruence.
    + intros e' d I I'. rewrite L3. apply (HG e'); [now right|exact I'].
    + exists l2, w2, g2. split; [exact R|]. split; [congruence|]. split; [congruence|]. split; [congruence|].
      split; [|split].
      * intros e' [<-|I]; [|now apply A4]. destruct (A5 (s_index e) NI) as (B1 & B2).
        rewrite B1, B2, (zset_get _ _ _ _ Z1), (zset_get _ _ _ _ Z2), Z.eqb_refl. auto.
      * intros k N. destruct (A5 k) as (B1 & B2); [intro I; apply N; cbn; auto|].
        rewrite B1, B2, (zset_get _ _ _ _ Z1), (zset_get _ _ _ _ Z2).
        destruct (Z.eqb_spec k (s_index e)); [|auto]. exfalso. apply N. cbn. auto.
      * intros k l E. rewrite (A6 _ _ (P3 _ _ E)). now rewrite <- app_assoc.
Qed.
End Loop.

(** ---- flat local dofs ---- *)
Lemma in_flatOfElement e dofs e' i : In (e', i) (flatOfElement e dofs) <->
  e' = Z.of_nat e /\ exists d, nth_error dofs i = Some d /\ 0 <= d.
Proof.
  unfold flatOfElement. rewrite in_flat_map. split.
  - intros (k & _ & H). destruct (nth_error dofs k) as [d|] eqn:E; [|contradiction].
    destruct (Z.leb_spec 0 d); [|contradiction]. destruct H as [H|[]]. injection H as <- <-. eauto.
  - intros (-> & d & E & P). exists i. split.
    + apply in_seq. assert (i < length dofs)%nat by (apply nth_error_Some; congruence). lia.
    + rewrite E. destruct (Z.leb_spec 0 d); [now left|lia].
Qed.
Lemma in_flatMap l2g e i : In (e, i) (initializeLocal2FlatLocalDofMap l2g) <->
  exists ds d, zget l2g e = Some ds /\ nth_error ds i = Some d /\ 0 <= d.
Proof.
  unfold initializeLocal2FlatLocalDofMap. rewrite in_flat_map. split.
  - intros (k & Hk & H). apply in_flatOfElement in H as (-> & d & E & P). apply in_seq in Hk.
    exists (nth k l2g []), d. rewrite zget_nat. split; [apply nth_error_nth'; lia|]. auto.
  - intros (ds & d & E & H). pose proof (zget_lt _ _ E) as L. exists (Z.to_nat e).
    split; [apply in_seq; lia|]. rewrite <- (Z2Nat.id e) in E by lia. rewrite zget_nat in E.
    rewrite (nth_error_nth _ _ _ E). apply in_flatOfElement. split; [lia|eauto].
Qed.
Lemma ss_app A (R : A -> A -> Prop) l1 l2 : StronglySorted R l1 -> StronglySorted R l2 ->
  (forall x y, In x l1 -> In y l2 -> R x y) -> StronglySorted R (l1 ++ l2).
Proof.
  intros S1 S2 H. induction S1 as [|a l S IH F]; cbn; [exact S2|]. constructor.
  - apply IH. intros; apply H; [now right|easy].
  - apply Forall_app. split; [exact F|]. apply Forall_forall. intros y I. apply H; [now left|exact I].
Qed.
Lemma ss_flat_map_seq A (R : A -> A -> Prop) (f : nat -> list A) : forall n a,
  (forall k, StronglySorted R (f k)) ->
  (forall k k' x y, (k < k')%nat -> In x (f k) -> In y (f k') -> R x y) ->
  StronglySorted R (flat_map f (seq a n)).
Proof.
  induction n; intros a H1 H2; cbn; [constructor|]. apply ss_app; [apply H1|now apply IHn|].
  intros x y I J. apply in_flat_map in J as (k & K1 & K2). apply in_seq in K1. apply (H2 a k); [lia|auto|auto].
Qed.
Lemma flat_sorted l2g : StronglySorted ldofLt (initializeLocal2FlatLocalDofMap l2g).
Proof.
  apply ss_flat_map_seq.
  - intro e. apply ss_flat_map_seq.
    + intro k. destruct (nth_error _ k); [|constructor]. destruct (0 <=? z); repeat constructor.
    + intros k k' x y L I J. destruct (nth_error _ k) as [d|]; [|contradiction].
      destruct (nth_error _ k') as [d'|]; [|contradiction].
      destruct (0 <=? d); [|contradiction]. destruct (0 <=? d'); [|contradiction].
      destruct I as [<-|[]], J as [<-|[]]. right. cbn. lia.
  - intros k k' [x i] [y j] L I J. apply in_flatOfElement in I as (-> & _). apply in_flatOfElement in J as (-> & _).
    left. cbn. lia.
Qed.
Lemma flatEnumerates_init (K : star_ring) (m : dofmap K) : dm_flat m = initializeLocal2FlatLocalDofMap (dm_l2g m) -> flatEnumerates m.
Proof.
  intro H. split; rewrite H; [apply flat_sorted|]. intros e i. rewrite in_flatMap. unfold globalDof. split.
  - intros (ds & d & A & B & C). exists d. split; [|exact C]. eauto.
  - intros (d & (ds & A & B) & C). eauto 6.
Qed.

(** ---- assignByEntity on a grid ---- *)
Lemma nth_error_repeat_ A (a : A) n k : (k < n)%nat -> nth_error (repeat a n) k = Some a.
Proof. intro H. rewrite (nth_error_nth' _ a) by now rewrite repeat_length. now rewrite nth_repeat. Qed.
Lemma NoDup_flat_positions (D : selt -> list Z) d : forall es, NoDup (map s_index es) ->
  NoDup (flat_map (fun e => positions (s_index e) 0 (D e) d) es).
Proof.
  induction es as [|e es IH]; cbn; intro N; [constructor|]. apply NoDup_cons_iff in N as (NI & N).
  apply NoDup_app; [apply positions_NoDup|now apply IH|].
  intros [x i] I J. apply in_positions in I as (-> & _). apply in_flat_map in J as (e' & E' & J).
  apply in_positions in J as (Q & _). apply NI. rewrite Q. now apply in_map.
Qed.

Definition indicesOk (es : list selt) : Prop :=
  NoDup (map s_index es) /\ (forall e, In e es -> 0 <= s_index e < Z.of_nat (length es)).
Lemma indices_cover es k : indicesOk es -> 0 <= k < Z.of_nat (length es) -> exists e, In e es /\ s_index e = k.
Proof.
  intros (N & R) H.
  assert (I : incl (zrange (Z.of_nat (length es))) (map s_index es)).
  { apply NoDup_length_incl; [exact N| |].
    - unfold zrange. rewrite !map_length, seq_length. lia.
    - intros x I. apply in_map_iff in I as (e & <- & I). apply in_zrange. auto. }
  assert (J : In k (map s_index es)) by (apply I; now apply in_zrange).
  apply in_map_iff in J as (e & E & J). eauto.
Qed.
Lemma indices_inj es e e' : indicesOk es -> In e es -> In e' es -> s_index e = s_index e' -> e = e'.
Proof.
  intros (N & _). revert N. induction es as [|a es IH]; cbn; [tauto|]. intro N. apply NoDup_cons_iff in N as (NI & N).
  intros [<-|I] [<-|J] E; auto.
  - exfalso. apply NI. rewrite E. now apply in_map.
  - exfalso. apply NI. rewrite <- E. now apply in_map.
Qed.
Lemma gridOk_indices g : gridOk g -> indicesOk (g_elts g).
Proof. intros (A & B & _). split; assumption. Qed.

Lemma assignByEntity_spec (K : star_ring) dofsOf wOf (D : selt -> list Z) (W : selt -> list K) n es :
  indicesOk es ->
  (forall e, In e es -> dofsOf e = Some (D e) /\ wOf e = Some (W e)) ->
  (forall e d, In e es -> In d (D e) -> d = -1 \/ 0 <= d < Z.of_nat n) ->
  (forall e, In e es -> length (W e) = length (D e)) ->
  exists m, assignByEntity dofsOf wOf (length es) n es = Some m /\
    (forall e, In e es -> zget (dm_l2g m) (s_index e) = Some (D e) /\ zget (dm_w m) (s_index e) = Some (W e)) /\
    length (dm_l2g m) = length es /\ length (dm_w m) = length es /\ globalDofCount m = n /\
    (forall k, (k < n)%nat -> nth_error (dm_g2l m) k =
        Some (flat_map (fun e => positions (s_index e) 0 (D e) (Z.of_nat k)) es)) /\
    consistent m /\ flatEnumerates m.
Proof.
  intros IO HD HR HL. pose proof IO as (N & R).
  destruct (@elementLoop_spec K dofsOf wOf D W es (repeat [] (length es)) (repeat [] (length es)) (repeat [] n))
    as (l2g & w & g2l & E & A1 & A2 & A3 & A4 & _ & A6).
  - exact HD.
  - exact N.
  - intros e I. rewrite repeat_length. auto.
  - now rewrite !repeat_length.
  - intros e d I J. rewrite repeat_length. destruct (HR e d I J); lia.
  - rewrite !repeat_length in *. unfold assignByEntity. rewrite E. cbn. eexists. split; [reflexivity|]. cbn.
    assert (G : forall k, (k < n)%nat -> nth_error g2l k =
        Some (flat_map (fun e => positions (s_index e) 0 (D e) (Z.of_nat k)) es)).
    { intros k H. specialize (A6 k []). cbn [app] in A6. apply A6. now apply nth_error_repeat_. }
    split; [exact A4|]. split; [exact A1|]. split; [exact A2|]. split; [exact A3|]. split; [exact G|].
    set (m := DofMap l2g w g2l (initializeLocal2FlatLocalDofMap l2g)).
    assert (GD : forall e i d, globalDof m e i d <-> exists x, In x es /\ s_index x = e /\ nth_error (D x) i = Some d).
    { intros e i d. unfold globalDof, m. cbn. split.
      - intros (ds & Z1 & Z2). destruct (@indices_cover es e IO) as (x & I & <-); [rewrite <- A1; now apply zget_lt in Z1|].
        destruct (A4 x I) as (B & _). exists x. repeat split; auto. congruence.
      - intros (x & I & <- & H). destruct (A4 x I) as (B & _). eauto. }
    split; [|now apply flatEnumerates_init].
    split; [|split].
    + intros e i d H. apply GD in H as (x & I & _ & H). unfold globalDofCount, m. cbn. rewrite A3.
      apply (HR x); [exact I|]. eapply nth_error_In; eauto.
    + intros e i. unfold dofWeight. split.
      * intros (d & H). apply GD in H as (x & I & <- & H). destruct (A4 x I) as (_ & B).
        assert (L : (i < length (W x))%nat) by (rewrite HL by auto; apply nth_error_Some; congruence).
        destruct (nth_error (W x) i) eqn:Q; [|apply nth_error_None in Q; lia]. unfold m; cbn. eauto.
      * intros (q & ws & Z1 & Z2). unfold m in Z1. cbn in Z1. destruct (@indices_cover es e IO) as (x & I & <-);
          [rewrite <- A2; now apply zget_lt in Z1|].
        destruct (A4 x I) as (B0 & B). assert (ws = W x) by congruence. subst ws.
        assert (L : (i < length (D x))%nat) by (rewrite <- HL by auto; apply nth_error_Some; congruence).
        destruct (nth_error (D x) i) as [d|] eqn:Q; [|apply nth_error_None in Q; lia]. exists d. apply GD. eauto.
    + unfold globalDofCount, m. cbn. rewrite A3. intros d H. eexists. split; [now apply G|].
      split; [now apply NoDup_flat_positions|]. intros e i. rewrite in_flat_map. split.
      * intros (x & I & H'). apply in_positions in H' as (-> & k & -> & H'). apply GD. exists x. auto.
      * intro H'. apply GD in H' as (x & I & <- & H'). exists x. split; [exact I|]. apply in_positions. split; [reflexivity|]. exists i. auto.
Qed.

Lemma elementLoop_length (K : star_ring) dofsOf (wOf : selt -> option (list K)) : forall es l2g w g2l r,
  elementLoop dofsOf wOf es l2g w g2l = Some r -> length (fst (fst r)) = length l2g.
Proof.
  induction es as [|x es IH]; intros l2g w g2l r H; cbn [elementLoop] in H; [injection H as <-; reflexivity|].
  destruct (dofsOf x); [|discriminate]. cbn [obind] in H. destruct (wOf x); [|discriminate]. cbn [obind] in H.
  destruct (zset l2g (s_index x) _) eqn:Z1; [|discriminate]. cbn [obind] in H.
  destruct (zset w (s_index x) _); [|discriminate]. cbn [obind] in H. destruct (pushDofs _ _ _ _); [|discriminate]. cbn [obind] in H.
  rewrite (IH _ _ _ _ H). apply (zset_length _ _ _ Z1).
Qed.
Lemma assignByEntity_shape (K : star_ring) dofsOf (wOf : selt -> option (list K)) n c es m :
  assignByEntity dofsOf wOf n c es = Some m -> length (dm_l2g m) = n /\ dm_flat m = initializeLocal2FlatLocalDofMap (dm_l2g m).
Proof.
  unfold assignByEntity. destruct (elementLoop _ _ _ _ _ _) as [[[a b] d]|] eqn:E; [|discriminate]. cbn [obind]. intro H. injection H as <-.
  apply elementLoop_length in E. cbn [fst dm_l2g dm_flat] in *. split; [now rewrite E, repeat_length|reflexivity].
Qed.

(** ---- numbering ---- *)
Definition isZero (x : Z) : bool := x =? 0.
Definition zerosOf (l : list Z) : list Z :=
  flat_map (fun k => match nth_error l k with Some x => if isZero x then [Z.of_nat k] else [] | None => [] end)
           (seq 0 (length l)).
Fixpoint zerosFrom (i : Z) (l : list Z) : list Z :=
  match l with [] => [] | x :: r => (if x =? 0 then [i] else []) ++ zerosFrom (i + 1) r end.
Lemma in_zerosFrom : forall l i v, In v (zerosFrom i l) <-> i <= v /\ zget l (v - i) = Some 0.
Proof.
  induction l as [|x r IH]; intros i v; cbn [zerosFrom].
  - split; [intros []|]. intros (_ & H). unfold zget in H. destruct (v - i <? 0); [discriminate|].
    destruct (Z.to_nat (v - i)); discriminate.
  - rewrite in_app_iff, IH. unfold zget. split.
    + intros [H|(H1 & H2)].
      * destruct (Z.eqb_spec x 0) as [->|]; [|contradiction]. destruct H as [<-|[]]. rewrite Z.sub_diag. cbn. split; [lia|reflexivity].
      * split; [lia|]. destruct (Z.ltb_spec (v - (i + 1)) 0); [discriminate|]. destruct (Z.ltb_spec (v - i) 0); [lia|].
        replace (Z.to_nat (v - i)) with (S (Z.to_nat (v - (i + 1)))) by lia. exact H2.
    + intros (H1 & H2). destruct (Z.ltb_spec (v - i) 0); [lia|]. destruct (Z.eq_dec v i) as [->|N].
      * rewrite Z.sub_diag in H2. cbn in H2. injection H2 as ->. left. rewrite Z.eqb_refl. now left.
      * right. split; [lia|]. destruct (Z.ltb_spec (v - (i + 1)) 0); [lia|].
        replace (Z.to_nat (v - i)) with (S (Z.to_nat (v - (i + 1)))) in H2 by lia. exact H2.
Qed.
Lemma zerosFrom_sorted : forall l i, StronglySorted Z.lt (zerosFrom i l).
Proof.
  induction l as [|x r IH]; intro i; cbn; [constructor|].
  destruct (x =? 0); cbn; [|apply IH]. constructor; [apply IH|]. apply Forall_forall. intros v H.
  apply in_zerosFrom in H. lia.
Qed.
Lemma numberZeros_spec : forall l c i l' c', 0 <= c -> numberZeros l c = (l', c') ->
  length l' = length l /\ c' = c + Z.of_nat (length (zerosFrom i l)) /\
  forall k x, nth_error l k = Some x ->
    (x <> 0 -> nth_error l' k = Some x) /\
    (x = 0 -> exists d, nth_error l' k = Some d /\ c <= d < c' /\
              nth_error (zerosFrom i l) (Z.to_nat (d - c)) = Some (i + Z.of_nat k)).
Proof.
  induction l as [|x r IH]; intros c i l' c' Hc E; cbn in E.
  - injection E as <- <-. split; [reflexivity|]. split; [cbn; lia|]. intros [|k] x H; discriminate.
  - destruct (x =? 0) eqn:X.
    + destruct (numberZeros r (c + 1)) as [r' c1] eqn:Er. injection E as <- <-.
      destruct (IH (c + 1) (i + 1) r' c1) as (L & C & P); [lia|exact Er|].
      cbn [zerosFrom]. rewrite X. cbn [app length]. split; [now rewrite L|]. split; [lia|].
      apply Z.eqb_eq in X. subst x. intros [|k] y H; cbn in H.
      * injection H as <-. split; [easy|]. intros _. exists c. split; [reflexivity|]. split; [lia|].
        rewrite Z.sub_diag. cbn. f_equal. lia.
      * destruct (P k y H) as (P1 & P2). split; [exact P1|]. intro Y. destruct (P2 Y) as (d & D1 & D2 & D3).
        exists d. split; [exact D1|]. split; [lia|]. replace (Z.to_nat (d - c)) with (S (Z.to_nat (d - (c + 1)))) by lia.
        cbn. rewrite D3. f_equal. lia.
    + destruct (numberZeros r c) as [r' c1] eqn:Er. injection E as <- <-.
      destruct (IH c (i + 1) r' c1) as (L & C & P); [lia|exact Er|].
      cbn [zerosFrom]. rewrite X. cbn [app length]. split; [now rewrite L|]. split; [lia|].
      apply Z.eqb_neq in X. intros [|k] y H; cbn in H.
      * injection H as <-. split; [reflexivity|]. intro; contradiction.
      * destruct (P k y H) as (P1 & P2). split; [exact P1|]. intro Y. destruct (P2 Y) as (d & D1 & D2 & D3).
        exists d. split; [exact D1|]. split; [lia|]. rewrite D3. f_equal. lia.
Qed.
