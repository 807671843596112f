(** Discontinuous spaces. *)
From Coq Require Import Permutation Sorted.
From Verif Require Import Base SegModel SegSpec SegProofs AsmModel AsmSpec SpaceModel SpaceSpec SpaceProofs SpaceP1Proofs RangeProofs PolyModel PolySpec PolyProofs1 PolyProofs2 PolyProofs3 PolyProofs4 PolyProofs5 PolyProofs6.
Set Implicit Arguments.
Unset Strict Implicit.
Local Open Scope Z_scope.

Section Run.
Variable p : nat.
Let N := length (nodes p).
Definition single (e : Z) (n : nat * nat) : list ldof := [(e, Z.to_nat (slot p n))].

Lemma runDP_spec e (act : nat * nat -> bool) : forall ns dofs g2l, NoDup ns -> (forall n, In n ns -> isNode p n) -> length dofs = N ->
  exists dofs', runDP e (map (fun n => (slot p n, act n)) ns) (dofs, g2l) = Some (dofs', g2l ++ map (single e) (filter act ns)) /\ length dofs' = N /\
   (forall n, In n ns -> exists d, zget dofs' (slot p n) = Some d /\
      if act n then 0 <= d /\ nth_error (g2l ++ map (single e) (filter act ns)) (Z.to_nat d) = Some (single e n) else d = -1) /\
   (forall n, isNode p n -> ~ In n ns -> zget dofs' (slot p n) = zget dofs (slot p n)).
Proof.
  induction ns as [|n ns IH]; intros dofs g2l ND ON LD.
  - exists dofs. cbn. rewrite app_nil_r. repeat split; auto. intros n [].
  - inversion ND as [|? ? NI ND']; subst. cbn [map runDP].
    assert (In0 : isNode p n) by (apply ON; now left). pose proof (slot_lt In0) as SL. fold N in SL.
    set (v := if act n then Z.of_nat (length g2l) else -1). destruct (zset_Some dofs (slot p n) v) as (d1 & E1); [lia|]. rewrite E1. cbn [obind].
    assert (S1 : forall n', isNode p n' -> n' <> n -> zget d1 (slot p n') = zget dofs (slot p n')).
    { intros n' I' NE. rewrite (zset_get _ _ _ (slot p n') E1). destruct (Z.eqb_spec (slot p n') (slot p n)) as [Q|]; [|reflexivity]. apply slot_inj in Q; auto; contradiction. }
    assert (S2 : zget d1 (slot p n) = Some v) by (rewrite (zset_get _ _ _ (slot p n) E1); now rewrite Z.eqb_refl).
    assert (S3 : length d1 = N) by (erewrite zset_length by eauto; exact LD).
    destruct (IH d1 (if act n then g2l ++ [single e n] else g2l) ND') as (d' & E & A1 & A2 & A3); [intros; apply ON; now right|exact S3|].
    assert (EQ : (if act n then g2l ++ [single e n] else g2l) ++ map (single e) (filter act ns) = g2l ++ map (single e) (filter act (n :: ns))).
    { cbn [filter]. destruct (act n); [|reflexivity]. cbn [map]. now rewrite <- app_assoc. }
    rewrite EQ in E, A2. exists d'. split; [exact E|]. split; [exact A1|]. split.
    + intros n' [<-|I]; [|now apply A2]. exists v. rewrite A3 by auto. split; [exact S2|]. subst v. cbn [filter]. destruct (act n); [|reflexivity].
      split; [lia|]. rewrite Nat2Z.id, nth_error_app2 by lia. now rewrite Nat.sub_diag.
    + intros n' I' NN. rewrite A3 by (auto; intro; apply NN; now right). apply S1; auto. intros ->. apply NN; now left.
Qed.

Variables (act : selt -> nat * nat -> bool) (ord : list (nat * nat)).
Hypotheses (OND : NoDup ord) (OIN : forall n, In n ord <-> isNode p n).
Definition allDofs (es : list selt) : list (list ldof) := flat_map (fun e => map (single (s_index e)) (filter (act e) ord)) es.
Lemma dpLoop_spec puts : N = Z.to_nat ((Z.of_nat p + 1) * (Z.of_nat p + 2) / 2) -> forall es l2g g2l,
  (forall e, In e es -> length (s_verts e) = 3%nat /\ puts e = Some (map (fun n => (slot p n, act e n)) ord)) ->
  NoDup (map s_index es) -> (forall e, In e es -> 0 <= s_index e < Z.of_nat (length l2g)) ->
  exists l2g', dpLoop puts (Z.of_nat p) es (l2g, g2l) = Some (l2g', g2l ++ allDofs es) /\ length l2g' = length l2g /\
   (forall k, ~ In k (map s_index es) -> zget l2g' k = zget l2g k) /\
   (forall e, In e es -> exists ds, zget l2g' (s_index e) = Some ds /\ length ds = N /\ forall n, isNode p n -> exists d, zget ds (slot p n) = Some d /\
      if act e n then 0 <= d /\ nth_error (g2l ++ allDofs es) (Z.to_nat d) = Some (single (s_index e) n) else d = -1).
Proof.
  intros LN. induction es as [|e es IH]; intros l2g g2l P ND R.
  - exists l2g. cbn. rewrite app_nil_r. repeat split; auto. intros e [].
  - cbn [map] in ND. inversion ND as [|? ? NI ND']; subst. cbn [dpLoop]. destruct (P e (or_introl eq_refl)) as (V3 & PE). rewrite V3, PE. cbn [Nat.eqb obind].
    rewrite <- LN.
    destruct (@runDP_spec (s_index e) (act e) ord (repeat 0 N) g2l OND) as (ds & E & A1 & A2 & _); [intros n I; now apply OIN|apply repeat_length|].
    rewrite E. cbn [obind fst snd]. destruct (zset_Some l2g (s_index e) ds) as (l1 & L1); [apply R; now left|]. rewrite L1. cbn [obind].
    assert (LL : length l1 = length l2g) by (eapply zset_length; eauto).
    destruct (IH l1 (g2l ++ map (single (s_index e)) (filter (act e) ord))) as (l' & E' & B1 & B2 & B3); [intros; apply P; now right|exact ND'|intros e' I; rewrite LL; apply R; now right|].
    assert (EQ : (g2l ++ map (single (s_index e)) (filter (act e) ord)) ++ allDofs es = g2l ++ allDofs (e :: es)) by (cbn [allDofs flat_map]; now rewrite <- app_assoc).
    rewrite EQ in *. exists l'. split; [exact E'|]. split; [congruence|]. split.
    + intros k NK. rewrite B2 by (intro; apply NK; now right). rewrite (zset_get _ _ _ k L1). destruct (Z.eqb_spec k (s_index e)) as [->|]; [exfalso; apply NK; now left|reflexivity].
    + intros e' [<-|I]; [|now apply B3]. exists ds. rewrite B2 by exact NI. rewrite (zset_get _ _ _ (s_index e) L1), Z.eqb_refl. split; [reflexivity|]. split; [exact A1|].
      intros n IN. apply OIN in IN. destruct (A2 n IN) as (d & D1 & D2). exists d. split; [exact D1|]. destruct (act e n); [|exact D2]. destruct D2 as (D2 & D3). split; [exact D2|].
      rewrite <- EQ. rewrite nth_error_app1; [exact D3|]. apply nth_error_Some. congruence.
Qed.
Lemma in_allDofs es l : In l (allDofs es) <-> exists e n, In e es /\ isNode p n /\ act e n = true /\ l = single (s_index e) n.
Proof.
  unfold allDofs. rewrite in_flat_map. split.
  - intros (e & I & J). apply in_map_iff in J as (n & <- & J). apply filter_In in J as (J & A). apply OIN in J. exists e, n. auto.
  - intros (e & n & I & J & A & ->). exists e. split; [exact I|]. apply in_map. apply filter_In. split; [now apply OIN|exact A].
Qed.
Lemma allDofs_NoDup es : NoDup (map s_index es) -> NoDup (allDofs es).
Proof.
  intros ND.
  assert (H : NoDup (map (fun x => [x]) (flat_map (fun e => map (fun n => (s_index e, Z.to_nat (slot p n))) (filter (act e) ord)) es))).
  { assert (H : NoDup (flat_map (fun e => map (fun n => (s_index e, Z.to_nat (slot p n))) (filter (act e) ord)) es)).
    { apply flat_elements_NoDup; [exact ND|]. intros e _. split; [now apply NoDup_filter|]. intros n I. apply filter_In in I as (I & _). now apply OIN. }
    revert H. generalize (flat_map (fun e => map (fun n => (s_index e, Z.to_nat (slot p n))) (filter (act e) ord)) es) as l. induction l as [|a l IH]; intros H; cbn; constructor.
    - intros I. apply in_map_iff in I as (b & E & I). injection E as ->. now inversion H.
    - apply IH. now inversion H. }
  assert (E : forall l, allDofs l = map (fun x => [x]) (flat_map (fun e => map (fun n => (s_index e, Z.to_nat (slot p n))) (filter (act e) ord)) l)).
  { induction l as [|e l IH]; [reflexivity|]. cbn [allDofs flat_map]. unfold allDofs in IH. rewrite IH, map_app, map_map. reflexivity. }
  now rewrite E.
Qed.
Lemma allDofs_length es : length (allDofs es) = length (flat_map (fun e => map (fun n => (s_index e, Z.to_nat (slot p n))) (filter (act e) ord)) es).
Proof. induction es as [|e l IH]; [reflexivity|]. cbn [allDofs flat_map]. rewrite !app_length, !map_length. unfold allDofs in IH. now rewrite IH. Qed.
End Run.

(** which local dofs get a dof *)
Definition actDP (s : segment) (ref elem : bool) (p : nat) (e : selt) (n : nat * nat) : bool :=
  if (p =? 0)%nat then inSeg s 0 (s_index e) else
  match classify p n with
  | Corner k => (negb elem || inSeg s 0 (s_index e)) && (negb ref || inSeg s 2 (vert e k))
  | Side k _ => (negb elem || inSeg s 0 (s_index e)) && (negb ref || inSeg s 1 (facet e k))
  | Inner => inSeg s 0 (s_index e)
  end.
Definition orderDP (p : nat) : list (nat * nat) := if (p =? 0)%nat then [(0, 0)%nat] else nodeOrder p.

Lemma dpPuts_eq s ref elem p e : shaped e -> dpPuts s ref elem (Z.of_nat p) e = Some (map (fun n => (slot p n, actDP s ref elem p e n)) (orderDP p)).
Proof.
  intros Sh. unfold dpPuts.
  assert (C0 : contains s 0 (s_index e) = Some (inSeg s 0 (s_index e))) by (destruct (inSeg_spec s (s_index e) (c := 0)) as (C & _); [lia|exact C]).
  assert (C : (if elem then contains s 0 (s_index e) else Some true) = Some (negb elem || inSeg s 0 (s_index e))) by (destruct elem; [exact C0|reflexivity]).
  rewrite C. cbn [obind]. unfold orderDP, actDP. destruct p as [|p'].
  { cbn [Nat.eqb]. change (Z.of_nat 0 =? 0) with true. cbv iota. rewrite C0. reflexivity. }
  set (p := S p'). assert (pos : (1 <= p)%nat) by (unfold p; lia). clearbody p. clear p'. destruct (p =? 0)%nat eqn:Q; [apply Nat.eqb_eq in Q; lia|]. clear Q.
  destruct (Z.eqb_spec (Z.of_nat p) 0) as [|_]; [lia|].
  set (c := negb elem || inSeg s 0 (s_index e)). set (A := fun n => match classify p n with
    | Corner k => c && (negb ref || inSeg s 2 (vert e k)) | Side k _ => c && (negb ref || inSeg s 1 (facet e k)) | Inner => inSeg s 0 (s_index e) end).
  assert (CO : forall k, (k < 3)%nat -> dpCorner s ref c (Z.of_nat p) e k = Some (slot p (cornerNode p k), A (cornerNode p k))).
  { intros k L. unfold dpCorner. rewrite (vertexOf_shaped pos) by auto. cbn [obind]. rewrite cornerIndex_slot by auto. unfold A. rewrite classify_corner by auto.
    destruct c; [|reflexivity]. destruct ref; [|reflexivity]. destruct (inSeg_spec s (vert e k) (c := 2)) as (C2 & _); [lia|]. change (Z.of_nat 2) with 2 in C2. rewrite C2. reflexivity. }
  assert (ED : forall k, (k < 3)%nat -> dpEdge s ref c (Z.of_nat p) e k = Some (map (fun n => (slot p n, A n)) (map (sideNode p k) (seq 1 (p - 1))))).
  { intros k L. unfold dpEdge. rewrite (facetOf_shaped pos) by auto. cbn [obind].
    assert (X : (if c then (if ref then contains s 1 (facet e k) else Some true) else Some false) = Some (c && (negb ref || inSeg s 1 (facet e k)))).
    { destruct c; [|reflexivity]. destruct ref; [|reflexivity]. destruct (inSeg_spec s (facet e k) (c := 1)) as (C1 & _); [lia|]. exact C1. }
    rewrite X. cbn [obind]. f_equal. replace (Z.to_nat (Z.of_nat p - 1)) with (p - 1)%nat by lia. change 1 with (Z.of_nat 1). rewrite (zseq_nat pos), !map_map.
    apply map_ext_in. intros l I. apply in_seq in I. rewrite edgeIndex_slot by (auto; lia). unfold A. rewrite classify_side by (auto; lia). reflexivity. }
  rewrite !CO by lia. cbn [obind].
  assert (E : (if 2 <=? Z.of_nat p then
           e0 <- dpEdge s ref c (Z.of_nat p) e 0 ;; e1 <- dpEdge s ref c (Z.of_nat p) e 1 ;; e2 <- dpEdge s ref c (Z.of_nat p) e 2 ;;
           Some (e0 ++ e1 ++ e2) else Some []) = Some (map (fun n => (slot p n, A n)) (map (sideNode p 0) (seq 1 (p - 1)) ++ map (sideNode p 1) (seq 1 (p - 1)) ++ map (sideNode p 2) (seq 1 (p - 1))))).
  { destruct (Z.leb_spec 2 (Z.of_nat p)).
    - rewrite !ED by lia. cbn [obind]. now rewrite !map_app.
    - replace (p - 1)%nat with 0%nat by lia. reflexivity. }
  rewrite E. cbn [obind].
  assert (B : (if 3 <=? Z.of_nat p then b <- contains s 0 (s_index e) ;; Some (map (fun i => (i, b : bool)) (bubbleIndices (Z.of_nat p))) else Some []) = Some (map (fun n => (slot p n, A n)) (innerNodes p))).
  { destruct (Z.leb_spec 3 (Z.of_nat p)).
    - rewrite C0. cbn [obind]. f_equal. rewrite bubbleIndices_slot by exact pos. rewrite map_map. apply map_ext_in. intros n I. unfold A. now rewrite (classify_inner pos) by exact I.
    - destruct (innerNodes p) as [|n r] eqn:Q; [reflexivity|]. assert (I : In n (innerNodes p)) by (rewrite Q; now left). apply in_inner in I; lia. }
  rewrite B. cbn [obind]. f_equal. unfold nodeOrder. rewrite (map_app _ [_;_;_]), (map_app _ (_ ++ _ ++ _)). reflexivity.
Qed.
Lemma orderDP_NoDup p : NoDup (orderDP p).
Proof. unfold orderDP. destruct (Nat.eqb_spec p 0); [repeat constructor; intros []|apply order_NoDup; lia]. Qed.
Lemma in_orderDP p n : In n (orderDP p) <-> isNode p n.
Proof.
  unfold orderDP. destruct (Nat.eqb_spec p 0) as [->|]; [|apply in_order; lia]. destruct n as [x y]. unfold isNode. cbn. split; [intros [E|[]]; injection E as <- <-; lia|].
  intros L. left. f_equal; lia.
Qed.

Lemma dp_core (K : star_ring) g s ref elem p : gridOk g -> triangulation g -> (p <= 10)%nat -> (ref || elem) = true ->
  exists (m : dofmap K) tab, polyDPAssign g s ref elem (Z.of_nat p) = Some (m, Z.of_nat (flatLocalDofCount m)) /\ tabulates g p m tab /\
   dm_g2l m = allDofs p (actDP s ref elem p) (orderDP p) (g_elts g) /\ flatLocalDofCount m = globalDofCount m /\
   (forall e n, In e (g_elts g) -> isNode p n -> ((exists d, tab e n = Some d) <-> actDP s ref elem p e n = true)) /\
   (forall e n d, In e (g_elts g) -> isNode p n -> tab e n = Some d -> nth_error (dm_g2l m) (Z.to_nat d) = Some [(s_index e, Z.to_nat (slot p n))]).
Proof.
  intros G T P10 M. unfold polyDPAssign. rewrite M. destruct (Z.leb_spec 0 (Z.of_nat p)); [|lia]. destruct (Z.leb_spec (Z.of_nat p) 10); [|lia]. cbn [andb negb orb].
  pose proof G as (G1 & G2 & _).
  assert (LN : length (nodes p) = Z.to_nat ((Z.of_nat p + 1) * (Z.of_nat p + 2) / 2)) by (rewrite <- nodes_length; lia).
  set (act := actDP s ref elem p).
  destruct (@dpLoop_spec p act (orderDP p) (orderDP_NoDup p) (@in_orderDP p) (dpPuts s ref elem (Z.of_nat p)) LN (g_elts g) (repeat [] (length (g_elts g))) [])
    as (l2g & E & A1 & _ & A3).
  { intros e I. split; [destruct (distinct_of T I) as (a & b & c & -> & _); reflexivity|]. apply dpPuts_eq. exact (shaped_of T I). }
  { exact G1. }
  { intros e I. rewrite repeat_length. now apply G2. }
  rewrite E. cbn [obind app]. cbn [app] in A3. set (g2l := allDofs p act (orderDP p) (g_elts g)) in *.
  set (m := DofMap l2g (map (fun ds => repeat one (length ds)) l2g) g2l (initializeLocal2FlatLocalDofMap l2g) : dofmap K).
  set (tab := fun e n => match zget l2g (s_index e) with Some ds => match zget ds (slot p n) with Some d => if 0 <=? d then Some d else None | None => None end | None => None end).
  assert (TA : forall e n, In e (g_elts g) -> isNode p n ->
    if act e n then exists d, tab e n = Some d /\ 0 <= d < Z.of_nat (length g2l) /\ nth_error g2l (Z.to_nat d) = Some (single p (s_index e) n) else tab e n = None).
  { intros e n I J. destruct (A3 e I) as (ds & B1 & B2 & B3). destruct (B3 n J) as (d & B4 & B5). unfold tab. rewrite B1, B4. destruct (act e n).
    - destruct B5 as (B5 & B6). exists d. destruct (Z.leb_spec 0 d); [|lia]. split; [reflexivity|]. split; [|exact B6].
      assert (Z.to_nat d < length g2l)%nat by (apply nth_error_Some; congruence). lia.
    - subst d. reflexivity. }
  assert (TS : forall e n d, In e (g_elts g) -> isNode p n -> tab e n = Some d -> 0 <= d < Z.of_nat (length g2l) /\ nth_error g2l (Z.to_nat d) = Some (single p (s_index e) n)).
  { intros e n d I J Q. specialize (TA e n I J). destruct (act e n); [|congruence]. destruct TA as (d' & Q' & R). assert (d' = d) by congruence. now subst. }
  destruct (@table_views p tab K (orderDP p) (g_elts g) m) as (V1 & V2 & V3 & V4 & V5).
  { apply orderDP_NoDup. }
  { apply in_orderDP. }
  { now apply gridOk_indices. }
  { cbn. now rewrite A1, repeat_length. }
  { reflexivity. }
  { reflexivity. }
  { intros e I. destruct (A3 e I) as (ds & B1 & B2 & B3). cbn [dm_l2g m]. rewrite B1. f_equal. apply dofs_eq; [exact B2|]. intros n J. destruct (B3 n J) as (d & B4 & B5).
    rewrite B4. f_equal. unfold tab. rewrite B1, B4. destruct (act e n); [destruct B5 as (B5 & _); destruct (Z.leb_spec 0 d); [reflexivity|lia]|subst d; reflexivity]. }
  { intros e n d I J Q. now apply (TS e n d I J). }
  { intros d L. unfold globalDofCount in L. cbn [m dm_g2l] in L |- *. destruct (nth_error g2l d) as [l|] eqn:Ed; [|apply nth_error_None in Ed; lia].
    exists l. split; [reflexivity|].
    pose proof (nth_error_In _ _ Ed) as Il. apply (in_allDofs act (@in_orderDP p)) in Il as (e & n & I & J & Ac & ->). split; [repeat constructor; intros []|].
    assert (DT : tab e n = Some (Z.of_nat d)).
    { specialize (TA e n I J). rewrite Ac in TA. destruct TA as (d' & Q & R & S). rewrite Q. f_equal.
      assert (Z.to_nat d' = d); [|lia]. apply (proj1 (NoDup_nth_error g2l) (@allDofs_NoDup p act _ (orderDP_NoDup p) (@in_orderDP p) _ G1)); [lia|congruence]. }
    intros x i. unfold single. cbn [In]. split.
    - intros [Q|[]]. injection Q as <- <-. exists e, n. repeat split; auto. apply (slot_nth J).
    - intros (e' & n' & I' & -> & J' & Q). left. pose proof (nth_slot _ _ J') as (J2 & SL). destruct (TS e' n' _ I' J2 Q) as (_ & Q2). rewrite Nat2Z.id, Ed in Q2. unfold single in Q2.
      injection Q2 as -> Q2. f_equal. lia. }
  assert (CNT : flatLocalDofCount m = globalDofCount m).
  { rewrite V5. unfold globalDofCount, m. cbn [dm_g2l]. unfold g2l. rewrite allDofs_length. unfold activeOf. f_equal.
    assert (X : forall es, incl es (g_elts g) -> flat_map (fun e => map (fun n => (s_index e, Z.to_nat (slot p n))) (filter (fun n => isSome (tab e n)) (orderDP p))) es =
       flat_map (fun e => map (fun n => (s_index e, Z.to_nat (slot p n))) (filter (act e) (orderDP p))) es).
    { induction es as [|e es IH]; intros IC; [reflexivity|]. cbn [flat_map]. rewrite IH by (intros x Ix; apply IC; now right). f_equal. f_equal. apply filter_ext_in. intros n J. apply in_orderDP in J.
      specialize (TA e n (IC e (or_introl eq_refl)) J). destruct (act e n); [destruct TA as (d & -> & _)|rewrite TA]; reflexivity. }
    apply X. apply incl_refl. }
  exists m, tab. split; [rewrite CNT; reflexivity|]. split; [split; [exact V1|split; [exact V2|split; [exact V3|split; [exact V4|]]]]; intros e n d I J Q; now apply (TS e n d I J)|].
  split; [reflexivity|]. split; [exact CNT|]. split.
  - intros e n I J. specialize (TA e n I J). fold act. destruct (act e n); [destruct TA as (d & Q & _); split; eauto|]. rewrite TA. split; [intros (d & Q); discriminate|discriminate].
  - intros e n d I J Q. now apply (TS e n d I J).
Qed.
