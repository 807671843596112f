(** The element loops. *)
From Coq Require Import Permutation Sorted.
From Verif Require Import Base SegModel SegSpec SegProofs AsmModel AsmSpec SpaceModel SpaceSpec SpaceProofs RangeProofs PolyModel PolySpec PolyProofs1.
Set Implicit Arguments.
Local Open Scope Z_scope.

Definition val (o : option Z) : Z := match o with Some d => d | None => -1 end.
Definition isSome (o : option Z) : bool := match o with Some _ => true | None => false end.
Definition hitsDof (o : option Z) (d : nat) : bool := match o with Some d' => Z.of_nat d =? d' | None => false end.

Lemma zpush_spec A (l : list (list A)) i x : 0 <= i < Z.of_nat (length l) -> exists l', zpush l i x = Some l' /\ length l' = length l /\
  forall k, nth_error l' k = option_map (fun r => if Z.of_nat k =? i then r ++ [x] else r) (nth_error l k).
Proof.
  intros H. unfold zpush. destruct (zget_Some l i H) as (r & R). rewrite R. cbn [obind]. destruct (zset_Some l i (r ++ [x]) H) as (l' & E).
  exists l'. split; [exact E|]. split; [eapply zset_length; eauto|]. intros k. rewrite <- !zget_nat, (zset_get _ _ _ (Z.of_nat k) E).
  destruct (Z.eqb_spec (Z.of_nat k) i) as [->|N]; [now rewrite R|]. now destruct (zget l (Z.of_nat k)).
Qed.

Section Element.
Variables (p : nat) (e : Z).
Let N := length (nodes p).

Lemma runPuts_spec (tab : nat * nat -> option Z) : forall ns dofs g2l flat, NoDup ns -> (forall n, In n ns -> isNode p n) -> length dofs = N ->
  (forall n d, In n ns -> tab n = Some d -> 0 <= d < Z.of_nat (length g2l)) ->
  exists dofs' g2l', runPuts e (map (fun n => (slot p n, tab n)) ns) (dofs, g2l, flat) =
      Some (dofs', g2l', flat + Z.of_nat (length (filter (fun n => isSome (tab n)) ns))) /\
    length dofs' = N /\ length g2l' = length g2l /\
    (forall n, In n ns -> zget dofs' (slot p n) = Some (val (tab n))) /\
    (forall n, isNode p n -> ~ In n ns -> zget dofs' (slot p n) = zget dofs (slot p n)) /\
    (forall d, nth_error g2l' d = option_map (fun l => l ++ map (fun n => (e, Z.to_nat (slot p n))) (filter (fun n => hitsDof (tab n) d) ns)) (nth_error g2l d)).
Proof.
  induction ns as [|n ns IH]; intros dofs g2l flat ND ON LD R.
  - exists dofs, g2l. cbn. rewrite Z.add_0_r. repeat split; auto. + intros n []. + intros d. destruct (nth_error g2l d); [cbn; now rewrite app_nil_r|reflexivity].
  - inversion ND as [|? ? NI ND']; subst. cbn [map runPuts].
    assert (In0 : isNode p n) by (apply ON; now left). pose proof (slot_lt In0) as SL. fold N in SL.
    assert (SET : forall v, exists dofs', zset dofs (slot p n) v = Some dofs') by (intros v; apply zset_Some; lia).
    assert (ON' : forall n0, In n0 ns -> isNode p n0) by (intros; apply ON; now right).
    assert (ST : forall v dofs1, zset dofs (slot p n) v = Some dofs1 -> (forall n', isNode p n' -> n' <> n -> zget dofs1 (slot p n') = zget dofs (slot p n')) /\ zget dofs1 (slot p n) = Some v /\ length dofs1 = N).
    { intros v dofs1 E. split; [|split].
      - intros n' I' NE. rewrite (zset_get _ _ _ (slot p n') E). destruct (Z.eqb_spec (slot p n') (slot p n)) as [Q|]; [|reflexivity]. apply slot_inj in Q; auto; contradiction.
      - rewrite (zset_get _ _ _ (slot p n) E). now rewrite Z.eqb_refl.
      - erewrite zset_length by eauto. exact LD. }
    destruct (tab n) as [d|] eqn:T.
    + destruct (SET d) as (dofs1 & E1). rewrite E1. cbn [obind]. destruct (ST _ _ E1) as (S1 & S2 & S3).
      assert (RD : 0 <= d < Z.of_nat (length g2l)) by (apply (R n); [now left|exact T]).
      destruct (zpush_spec _ (e, Z.to_nat (slot p n)) RD) as (g1 & G1 & G2 & G3). rewrite G1. cbn [obind].
      destruct (IH dofs1 g1 (flat + 1) ND' ON' S3) as (dofs' & g2l' & E & A1 & A2 & A3 & A4 & A5).
      { intros n0 d0 I0 T0. rewrite G2. apply (R n0); [now right|exact T0]. }
      exists dofs', g2l'. cbn [filter]. rewrite T. cbn [isSome]. split; [rewrite E; cbn [length]; do 2 f_equal; lia|].
      split; [exact A1|]. split; [congruence|]. split; [|split].
      * intros n' [<-|I]; [|now apply A3]. rewrite A4 by auto. now rewrite S2, T.
      * intros n' I' NN. rewrite A4 by (auto; intro; apply NN; now right). apply S1; auto. intros ->. apply NN; now left.
      * intros k. rewrite A5, G3. destruct (nth_error g2l k) as [l|]; [|reflexivity]. cbn [option_map]. f_equal. cbn [hitsDof].
        destruct (Z.of_nat k =? d); [|reflexivity]. cbn [map]. now rewrite <- app_assoc.
    + destruct (SET (-1)) as (dofs1 & E1). rewrite E1. cbn [obind]. destruct (ST _ _ E1) as (S1 & S2 & S3).
      destruct (IH dofs1 g2l flat ND' ON' S3) as (dofs' & g2l' & E & A1 & A2 & A3 & A4 & A5).
      { intros n0 d0 I0 T0. apply (R n0); [now right|exact T0]. }
      exists dofs', g2l'. cbn [filter]. rewrite T. cbn [isSome]. split; [exact E|].
      split; [exact A1|]. split; [congruence|]. split; [|split].
      * intros n' [<-|I]; [|now apply A3]. rewrite A4 by auto. now rewrite S2, T.
      * intros n' I' NN. rewrite A4 by (auto; intro; apply NN; now right). apply S1; auto. intros ->. apply NN; now left.
      * intros k. rewrite A5. reflexivity.
Qed.

(** the list of dofs from its values at all slots *)
Lemma dofs_eq (f : nat * nat -> Z) dofs : length dofs = N -> (forall n, isNode p n -> zget dofs (slot p n) = Some (f n)) -> dofs = map f (nodes p).
Proof.
  intros L H. apply nth_error_ext. intros i. rewrite nth_error_map. destruct (nth_error (nodes p) i) as [n|] eqn:E.
  - pose proof (nth_slot _ _ E) as (I & S). cbn. rewrite <- zget_nat, <- S. now apply H.
  - apply nth_error_None. apply nth_error_None in E. unfold N in L. lia.
Qed.
End Element.

(** what the two loops end up with *)
Section Table.
Variables (p : nat) (tab : selt -> nat * nat -> option Z).
Definition activeOf (e : selt) (ns : list (nat * nat)) : list ldof :=
  map (fun n => (s_index e, Z.to_nat (slot p n))) (filter (fun n => isSome (tab e n)) ns).
Definition hits (ns : list (nat * nat)) (es : list selt) (d : nat) : list ldof :=
  flat_map (fun e => map (fun n => (s_index e, Z.to_nat (slot p n))) (filter (fun n => hitsDof (tab e n) d) ns)) es.

Lemma polyLoop_spec (pos : (1 <= p)%nat) puts : forall es l2g g2l flat,
  (forall e, In e es -> length (s_verts e) = 3%nat /\ puts e = Some (map (fun n => (slot p n, tab e n)) (nodeOrder p))) ->
  NoDup (map s_index es) -> (forall e, In e es -> 0 <= s_index e < Z.of_nat (length l2g)) ->
  (forall e n d, In e es -> isNode p n -> tab e n = Some d -> 0 <= d < Z.of_nat (length g2l)) ->
  exists l2g' g2l', polyLoop puts (length (nodes p)) es (l2g, g2l, flat) =
      Some (l2g', g2l', flat + Z.of_nat (length (flat_map (fun e => activeOf e (nodeOrder p)) es))) /\
    length l2g' = length l2g /\ length g2l' = length g2l /\
    (forall e, In e es -> zget l2g' (s_index e) = Some (map (fun n => val (tab e n)) (nodes p))) /\
    (forall k, ~ In k (map s_index es) -> zget l2g' k = zget l2g k) /\
    (forall d, nth_error g2l' d = option_map (fun l => l ++ hits (nodeOrder p) es d) (nth_error g2l d)).
Proof.
  induction es as [|e es IH]; intros l2g g2l flat P ND R RD.
  - exists l2g, g2l. cbn. rewrite Z.add_0_r. repeat split; auto. + intros e []. + intros d. destruct (nth_error g2l d); [cbn; now rewrite app_nil_r|reflexivity].
  - cbn [map] in ND. inversion ND as [|? ? NI ND']; subst. cbn [polyLoop]. destruct (P e (or_introl eq_refl)) as (V3 & PE). rewrite V3, PE. cbn [Nat.eqb obind].
    destruct (@runPuts_spec p (s_index e) (tab e) (nodeOrder p) (repeat 0 (length (nodes p))) g2l flat) as (dofs & g1 & E & A1 & A2 & A3 & A4 & A5).
    + apply order_NoDup. exact pos.
    + intros n I. now apply in_order in I.
    + apply repeat_length.
    + intros n d I T. apply in_order in I; [|exact pos]. apply (RD e n); auto. now left.
    + rewrite E. cbn [obind]. destruct (zset_Some l2g (s_index e) dofs) as (l1 & L1); [apply R; now left|]. rewrite L1. cbn [obind].
      assert (LL : length l1 = length l2g) by (eapply zset_length; eauto).
      assert (DE : dofs = map (fun n => val (tab e n)) (nodes p)).
      { apply dofs_eq; [exact A1|]. intros n I. apply A3. now apply in_order. }
      destruct (IH l1 g1 (flat + Z.of_nat (length (filter (fun n => isSome (tab e n)) (nodeOrder p))))) as (l2g' & g2l' & E2 & B1 & B2 & B3 & B4 & B5).
      * intros e' I. apply P. now right.
      * exact ND'.
      * intros e' I. rewrite LL. apply R. now right.
      * intros e' n d I. rewrite A2. apply RD. now right.
      * exists l2g', g2l'. split; [rewrite E2; cbn [flat_map]; rewrite app_length; unfold activeOf at 2; rewrite map_length; do 2 f_equal; lia|].
        split; [congruence|]. split; [congruence|]. split; [|split].
        -- intros e' [<-|I]; [|now apply B3]. rewrite B4 by exact NI. rewrite (zset_get _ _ _ (s_index e) L1), Z.eqb_refl. now rewrite DE.
        -- intros k NK. rewrite B4 by (intro; apply NK; now right). rewrite (zset_get _ _ _ k L1). destruct (Z.eqb_spec k (s_index e)) as [->|]; [exfalso; apply NK; now left|reflexivity].
        -- intros d. rewrite B5, A5. destruct (nth_error g2l d) as [l|]; [|reflexivity]. cbn [option_map hits flat_map]. now rewrite app_assoc.
Qed.

Lemma in_active e ns x i : (forall n, In n ns <-> isNode p n) ->
  In (x, i) (activeOf e ns) <-> x = s_index e /\ exists n d, nth_error (nodes p) i = Some n /\ tab e n = Some d.
Proof.
  intros M. unfold activeOf. rewrite in_map_iff. split.
  - intros (n & E & I). injection E as <- <-. apply filter_In in I as (I & S). apply M in I. destruct (tab e n) as [d|] eqn:T; [|discriminate].
    split; [reflexivity|]. exists n, d. apply slot_nth in I as (_ & I). auto.
  - intros (-> & n & d & I & T). pose proof (nth_slot _ _ I) as (IN & SL). exists n. rewrite SL, Nat2Z.id. split; [reflexivity|].
    apply filter_In. split; [now apply M|]. now rewrite T.
Qed.
Lemma in_hits es ns x i d : (forall n, In n ns <-> isNode p n) ->
  In (x, i) (hits ns es d) <-> exists e n, In e es /\ x = s_index e /\ nth_error (nodes p) i = Some n /\ tab e n = Some (Z.of_nat d).
Proof.
  intros M. unfold hits. rewrite in_flat_map. split.
  - intros (e & Ie & I). apply in_map_iff in I as (n & E & I). injection E as <- <-. apply filter_In in I as (I & S). apply M in I.
    exists e, n. split; [exact Ie|]. split; [reflexivity|]. apply slot_nth in I as (_ & I). split; [exact I|].
    unfold hitsDof in S. destruct (tab e n) as [d'|]; [|discriminate]. apply Z.eqb_eq in S. congruence.
  - intros (e & n & Ie & -> & I & T). exists e. split; [exact Ie|]. pose proof (nth_slot _ _ I) as (IN & SL). apply in_map_iff. exists n. rewrite SL, Nat2Z.id.
    split; [reflexivity|]. apply filter_In. split; [now apply M|]. unfold hitsDof. rewrite T. apply Z.eqb_refl.
Qed.
Lemma map_slot_NoDup e ns : NoDup ns -> (forall n, In n ns -> isNode p n) -> NoDup (map (fun n => (e : Z, Z.to_nat (slot p n))) ns).
Proof.
  induction ns as [|n ns IH]; intros ND M; [constructor|]. inversion ND; subst. cbn. constructor; [|apply IH; auto; intros; apply M; now right].
  intros I. apply in_map_iff in I as (n' & E & I). injection E as E.
  assert (A : isNode p n) by (apply M; now left). assert (B : isNode p n') by (apply M; now right).
  pose proof (slot_lt A). pose proof (slot_lt B). assert (Q : slot p n' = slot p n) by lia. apply slot_inj in Q; auto. subst. contradiction.
Qed.
Lemma NoDup_filter_ A (f : A -> bool) l : NoDup l -> NoDup (filter f l).
Proof. apply NoDup_filter. Qed.
Lemma flat_elements_NoDup (f : selt -> list (nat * nat)) es : NoDup (map s_index es) ->
  (forall e, In e es -> NoDup (f e) /\ forall n, In n (f e) -> isNode p n) ->
  NoDup (flat_map (fun e => map (fun n => (s_index e, Z.to_nat (slot p n))) (f e)) es).
Proof.
  induction es as [|e es IH]; intros ND M; [constructor|]. inversion ND as [|? ? NI ND']; subst. cbn [flat_map].
  destruct (M e (or_introl eq_refl)) as (A & B). apply NoDup_app2; [now apply map_slot_NoDup|apply IH; auto; intros; apply M; now right|].
  intros [x i] I J. apply in_map_iff in I as (n & E & _). injection E as <- <-. apply in_flat_map in J as (e' & Ie & J). apply in_map_iff in J as (n' & E & _).
  injection E as E _. apply NI. rewrite <- E. now apply in_map.
Qed.

(** the views *)
Lemma table_views (K : star_ring) (ord : list (nat * nat)) es (m : dofmap K) : NoDup ord -> (forall n, In n ord <-> isNode p n) -> indicesOk es -> length (dm_l2g m) = length es ->
  dm_w m = map (fun ds => repeat one (length ds)) (dm_l2g m) -> dm_flat m = initializeLocal2FlatLocalDofMap (dm_l2g m) ->
  (forall e, In e es -> zget (dm_l2g m) (s_index e) = Some (map (fun n => val (tab e n)) (nodes p))) ->
  (forall e n d, In e es -> isNode p n -> tab e n = Some d -> 0 <= d < Z.of_nat (globalDofCount m)) ->
  (forall d, (d < globalDofCount m)%nat -> exists l, nth_error (dm_g2l m) d = Some l /\ NoDup l /\
     forall x i, In (x, i) l <-> exists e n, In e es /\ x = s_index e /\ nth_error (nodes p) i = Some n /\ tab e n = Some (Z.of_nat d)) ->
  consistent m /\ flatEnumerates m /\
  (forall x i d, globalDof m x i d <-> exists e n, In e es /\ x = s_index e /\ nth_error (nodes p) i = Some n /\ d = val (tab e n)) /\
  (forall e i, In e es -> (i < length (nodes p))%nat -> dofWeight m (s_index e) i one) /\
  flatLocalDofCount m = length (flat_map (fun e => activeOf e ord) es).
Proof.
  intros OND ORD IO LL W FL HL R HG.
  assert (GD : forall x i d, globalDof m x i d <-> exists e n, In e es /\ x = s_index e /\ nth_error (nodes p) i = Some n /\ d = val (tab e n)).
  { intros x i d. unfold globalDof. split.
    - intros (ds & A & B). destruct (@indices_cover es x IO) as (e & I & <-); [rewrite <- LL; now apply zget_lt in A|].
      rewrite (HL e I) in A. assert (DS : ds = map (fun n => val (tab e n)) (nodes p)) by congruence. rewrite DS in B. rewrite nth_error_map in B. destruct (nth_error (nodes p) i) as [n|] eqn:E; [|discriminate].
      injection B as <-. eauto 6.
    - intros (e & n & I & -> & E & ->). eexists. split; [apply (HL e I)|]. rewrite nth_error_map, E. reflexivity. }
  assert (FE : flatEnumerates m) by now apply flatEnumerates_init.
  split; [|split; [exact FE|split; [exact GD|split]]].
  - split; [|split].
    + intros x i d H. apply GD in H as (e & n & I & -> & E & ->). destruct (tab e n) as [d|] eqn:T; [|now left]. right. cbn [val].
      apply (R e n d I); [eapply nth_slot; eauto|exact T].
    + intros x i. unfold globalDof, dofWeight. rewrite W. split.
      * intros (d & ds & A & B). exists one, (repeat one (length ds)). split.
        -- unfold zget in *. destruct (x <? 0); [discriminate|]. rewrite nth_error_map, A. reflexivity.
        -- apply nth_error_repeat_. apply nth_error_Some. congruence.
      * intros (w & ws & A & B). unfold zget in A. destruct (x <? 0) eqn:X; [discriminate|]. rewrite nth_error_map in A.
        destruct (nth_error (dm_l2g m) (Z.to_nat x)) as [ds|] eqn:E; [|discriminate]. injection A as <-.
        assert (i < length ds)%nat by (rewrite <- (repeat_length (one : K) (length ds)); apply nth_error_Some; congruence).
        destruct (nth_error ds i) as [d|] eqn:Q; [|apply nth_error_None in Q; lia]. exists d, ds. split; [|exact Q]. unfold zget. now rewrite X.
    + intros d L. destruct (HG d L) as (l & A & B & C). exists l. split; [exact A|]. split; [exact B|]. intros x i. rewrite C, GD. split.
      * intros (e & n & I & E1 & E2 & E3). exists e, n. rewrite E3. auto.
      * intros (e & n & I & E1 & E2 & E3). exists e, n. repeat split; auto. destruct (tab e n) as [d'|]; cbn [val] in E3; [congruence|lia].
  - intros e i I L. unfold dofWeight. rewrite W. exists (repeat one (length (nodes p))). split; [|now apply nth_error_repeat_].
    pose proof (HL e I) as A. unfold zget in *. destruct (s_index e <? 0); [discriminate|]. rewrite nth_error_map, A. cbn. now rewrite map_length.
  - unfold flatLocalDofCount. apply Permutation_length. destruct FE as (SS & FE).
    apply NoDup_Permutation.
    + clear -SS. induction SS as [|a l S IH F]; constructor; [|exact IH]. intro I. rewrite Forall_forall in F. apply F in I. unfold ldofLt in I. lia.
    + unfold activeOf. apply flat_elements_NoDup; [apply IO|]. intros e _. split; [apply NoDup_filter; exact OND|]. intros n I. apply filter_In in I as (I & _). now apply ORD.
    + intros (x, i). rewrite FE, in_flat_map. split.
      * intros (d & H & P). apply GD in H as (e & n & I & -> & E & ->). exists e. split; [exact I|]. apply in_active; [exact ORD|]. split; [reflexivity|].
        destruct (tab e n) as [d|] eqn:T; [|cbn in P; lia]. eauto.
      * intros (e & I & H). apply in_active in H as (-> & n & d & E & T); [|exact ORD]. exists d. split; [apply GD; exists e, n; rewrite T; auto|].
        apply (R e n d I); [eapply nth_slot; eauto|exact T].
Qed.
End Table.
