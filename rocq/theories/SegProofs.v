From Coq Require Import List ZArith Bool Lia Sorted Arith.
Import ListNotations.
From Verif Require Import Base SegModel SegSpec.
Local Open Scope Z_scope.

Lemma smem_In x l : smem x l = true <-> In x l.
Proof.
  unfold smem. rewrite existsb_exists. split.
  - intros (y & H & E). apply Z.eqb_eq in E. now subst.
  - intros H. exists x. split; [exact H|apply Z.eqb_refl].
Qed.
Lemma smem_false x l : smem x l = false <-> ~ In x l.
Proof. rewrite <- not_true_iff_false, smem_In. reflexivity. Qed.
Lemma in_sinsert x l y : In y (sinsert x l) <-> y = x \/ In y l.
Proof.
  induction l as [|z l IH]; cbn [sinsert]; [cbn; intuition|].
  destruct (x <? z); [cbn; intuition|]. destruct (Z.eqb_spec x z) as [->|H].
  - cbn. intuition.
  - cbn [In]. rewrite IH. intuition.
Qed.
Lemma in_fold_sinsert l : forall s y, In y (fold_left (fun s x => sinsert x s) l s) <-> In y l \/ In y s.
Proof.
  induction l as [|x l IH]; intros s y; cbn [fold_left In]; [tauto|].
  rewrite IH, in_sinsert. intuition.
Qed.

(** contains, in Prop form *)
Lemma contains_iff s c i : (c < 4)%nat ->
  (contains s (Z.of_nat c) i = Some true <-> 0 <= i < counts s c /\ ~ In i (excluded s c)) /\
  (contains s (Z.of_nat c) i <> Some true -> contains s (Z.of_nat c) i = Some false).
Proof.
  intros Hc. unfold contains.
  replace ((Z.of_nat c <? 0) || (3 <? Z.of_nat c)) with false.
  2:{ symmetry. apply orb_false_iff. split; apply Z.ltb_ge; lia. }
  rewrite Nat2Z.id. split.
  - split.
    + intros H. inversion H as [H1]. rewrite !andb_true_iff, negb_true_iff, Z.leb_le, Z.ltb_lt, smem_false in H1. tauto.
    + intros [[H1 H2] H3]. f_equal. rewrite !andb_true_iff, negb_true_iff, Z.leb_le, Z.ltb_lt, smem_false. auto.
  - destruct (_ && _ && _); [congruence|reflexivity].
Qed.
Lemma contains_reject s c i : c < 0 \/ 3 < c -> contains s c i = None.
Proof.
  intros H. unfold contains. replace ((c <? 0) || (3 <? c)) with true; [reflexivity|].
  symmetry. apply orb_true_iff. destruct H; [left|right]; apply Z.ltb_lt; lia.
Qed.
Lemma holds_iff s c i : (c < 4)%nat -> (holds s c i <-> 0 <= i < counts s c /\ ~ In i (excluded s c)).
Proof. intros H. apply (contains_iff s c i H). Qed.

(** complement *)
Lemma complementLoop_spec : forall n idx it, Sorted Z.lt it -> (forall x, In x it -> idx <= x) ->
  forall y, In y (complementLoop idx n it) <-> (idx <= y < idx + Z.of_nat n /\ ~ In y it).
Proof.
  induction n as [|n IH]; intros idx it Hs Hb y; cbn [complementLoop]; [cbn; lia|].
  destruct it as [|x r].
  - cbn [In]. rewrite IH; [|constructor|intros x []]. split.
    + intros [<-|[H _]]; [lia|]. lia.
    + intros [H _]. destruct (Z.eq_dec idx y); [now left|right; split; [lia|intros []]].
  - assert (Hx : idx <= x) by (apply Hb; now left).
    assert (Hall : forall z, In z r -> x < z).
    { apply Sorted_StronglySorted in Hs; [|intros a b c; lia]. inversion Hs as [|? ? ? F]; subst.
      rewrite Forall_forall in F. exact F. }
    destruct (Z.ltb_spec idx x) as [H|H].
    + cbn [In]. rewrite IH; [|exact Hs|intros z [<-|Hz]; [lia|specialize (Hall z Hz); lia]].
      cbn [In]. split.
      * intros [<-|[H1 H2]]; [|split; [lia|exact H2]]. split; [lia|]. intros [E|Hi]; [lia|]. specialize (Hall _ Hi). lia.
      * intros [H1 H2]. destruct (Z.eq_dec idx y); [now left|]. right. split; [lia|exact H2].
    + assert (x = idx) by lia. subst x. rewrite IH.
      * cbn [In]. split.
        -- intros [H1 H2]. split; [lia|]. intros [E|Hi]; [lia|contradiction].
        -- intros [H1 H2]. split; [|tauto]. assert (idx <> y) by tauto. lia.
      * now inversion Hs.
      * intros z Hz. specialize (Hall z Hz). lia.
Qed.

Lemma complementLoop_sorted : forall n idx it, Sorted Z.lt (complementLoop idx n it) /\
   (forall x, In x (complementLoop idx n it) -> idx <= x).
Proof.
  induction n as [|n IH]; intros idx it; cbn [complementLoop]; [split; [constructor|intros x []]|].
  assert (C : forall it', Sorted Z.lt (idx :: complementLoop (idx + 1) n it') /\
    (forall x, In x (idx :: complementLoop (idx + 1) n it') -> idx <= x)).
  { intros it'. destruct (IH (idx + 1) it') as [H1 H2]. split.
    - constructor; [exact H1|]. destruct (complementLoop (idx + 1) n it') as [|z w] eqn:E; [constructor|].
      constructor. specialize (H2 z (or_introl eq_refl)). lia.
    - intros x [<-|Hx]; [lia|]. specialize (H2 x Hx). lia. }
  destruct it as [|x r]; [apply C|]. destruct (idx <? x); [apply C|].
  destruct (IH (idx + 1) r) as [H1 H2]. split; [exact H1|]. intros y Hy. specialize (H2 y Hy). lia.
Qed.

Lemma complement_holds s c i : (c < 4)%nat -> wellFormed s ->
  (holds (complement s) c i <-> 0 <= i < counts s c /\ ~ holds s c i).
Proof.
  intros Hc Hw. rewrite !holds_iff by exact Hc. cbn [complement counts excluded].
  destruct (Hw c) as [Hs Hp]. rewrite complementLoop_spec by assumption.
  rewrite Z.add_0_l. split.
  - intros [H1 H2]. split; [exact H1|]. intros [_ H3]. apply H2. split; [|exact H3].
    rewrite Z2Nat.id by lia. lia.
  - intros [H1 H2]. split; [exact H1|]. intros [H3 H4]. apply H2. auto.
Qed.
Lemma complement_wf s : wellFormed s -> wellFormed (complement s).
Proof. intros _ c. cbn. apply complementLoop_sorted. Qed.
Lemma union_holds s o c i : (c < 4)%nat -> counts o c = counts s c ->
  (holds (union_ s o) c i <-> holds s c i \/ holds o c i).
Proof.
  intros Hc E. rewrite !holds_iff by exact Hc. cbn [union_ counts excluded]. rewrite filter_In, smem_In, E.
  destruct (in_dec Z.eq_dec i (excluded s c)); destruct (in_dec Z.eq_dec i (excluded o c)); tauto.
Qed.
Lemma intersection_holds s o c i : (c < 4)%nat -> counts o c = counts s c ->
  (holds (intersection s o) c i <-> holds s c i /\ holds o c i).
Proof.
  intros Hc E. rewrite !holds_iff by exact Hc. cbn [intersection counts excluded]. rewrite in_fold_sinsert, E. tauto.
Qed.
Lemma difference_holds s o c i : (c < 4)%nat -> counts o c = counts s c -> wellFormed o ->
  (holds (difference s o) c i <-> holds s c i /\ ~ holds o c i).
Proof.
  intros Hc E Hw. unfold difference. rewrite intersection_holds by (try exact Hc; exact E).
  rewrite complement_holds by assumption. rewrite E. split.
  - tauto.
  - intros [H1 H2]. split; [exact H1|]. split; [|exact H2]. apply holds_iff in H1; [|exact Hc]. tauto.
Qed.

Lemma sinsert_sorted x l : Sorted Z.lt l -> Sorted Z.lt (sinsert x l).
Proof.
  induction l as [|y r IH]; intros H; cbn [sinsert]; [repeat constructor|].
  destruct (Z.ltb_spec x y) as [Hlt|Hge]; [constructor; [exact H|constructor; exact Hlt]|].
  destruct (Z.eqb_spec x y) as [->|Hne]; [exact H|].
  inversion H as [|? ? Hr Hh]; subst. specialize (IH Hr). constructor; [exact IH|].
  destruct r as [|z w]; cbn [sinsert] in *; [constructor; lia|].
  inversion Hh; subst. destruct (x <? z); [constructor; lia|]. destruct (x =? z); constructor; assumption.
Qed.
Lemma fold_sinsert_sorted l : forall s, Sorted Z.lt s -> Sorted Z.lt (fold_left (fun s x => sinsert x s) l s).
Proof. induction l as [|x l IH]; intros s H; cbn [fold_left]; [exact H|]. apply IH, sinsert_sorted, H. Qed.
Lemma filter_sorted p l : Sorted Z.lt l -> Sorted Z.lt (filter p l).
Proof.
  intros H. apply Sorted_StronglySorted in H; [|intros a b c; lia]. apply StronglySorted_Sorted.
  induction H as [|x l Hl IH F]; cbn [filter]; [constructor|]. destruct (p x); [|exact IH].
  constructor; [exact IH|]. rewrite Forall_forall in *. intros y Hy. apply filter_In in Hy. now apply F.
Qed.
Lemma union_wf s o : wellFormed s -> wellFormed (union_ s o).
Proof.
  intros H c. cbn. destruct (H c) as [H1 H2]. split; [now apply filter_sorted|].
  intros x Hx. apply filter_In in Hx. now apply H2.
Qed.
Lemma intersection_wf s o : wellFormed s -> wellFormed o -> wellFormed (intersection s o).
Proof.
  intros H H' c. cbn. destruct (H c) as [H1 H2]. split; [now apply fold_sinsert_sorted|].
  intros x Hx. apply in_fold_sinsert in Hx. destruct Hx as [Hx|Hx]; [now apply (H' c)|now apply H2].
Qed.
Lemma difference_wf s o : wellFormed s -> wellFormed o -> wellFormed (difference s o).
Proof. intros H H'. apply intersection_wf; [exact H|now apply complement_wf]. Qed.

(** marks *)
Lemma updZ_upd l i v : updZ l i v = upd l i v.
Proof. revert i. induction l as [|h t IH]; intros [|i]; cbn; try reflexivity. now rewrite IH. Qed.
Lemma markLoop_ok mark : forall ex m, (forall x, In x ex -> 0 <= x < Z.of_nat (length m)) ->
  exists r, markLoop m ex mark = Some r /\ length r = length m /\
   forall i, 0 <= i < Z.of_nat (length m) -> nth_error r (Z.to_nat i) = if smem i ex then Some mark else nth_error m (Z.to_nat i).
Proof.
  induction ex as [|x ex IH]; intros m Hb; cbn [markLoop].
  - exists m. repeat split. 
  - pose proof (Hb x (or_introl eq_refl)) as Hx. destruct (Z.ltb_spec x 0); [lia|].
    rewrite updZ_upd. destruct (@upd_Some _ m (Z.to_nat x) mark) as (m' & E); [lia|]. rewrite E.
    pose proof (upd_length _ _ _ E) as L.
    destruct (IH m') as (r & Er & Lr & H'). { intros y Hy. rewrite L. apply Hb. now right. }
    exists r. split; [exact Er|]. split; [congruence|]. intros i Hi. rewrite H' by (rewrite L; exact Hi).
    cbn [smem existsb]. change (existsb (Z.eqb i) ex) with (smem i ex).
    destruct (smem i ex); [now rewrite orb_true_r|]. rewrite orb_false_r.
    rewrite (upd_nth_error _ _ _ (Z.to_nat i) E).
    destruct (Z.eqb_spec i x) as [->|Hne]; [now rewrite Nat.eqb_refl|].
    destruct (Nat.eqb_spec (Z.to_nat i) (Z.to_nat x)); [lia|reflexivity].
Qed.

(** ---- domains ---- *)
Lemma in_zrange n i : In i (zrange n) <-> 0 <= i < n.
Proof.
  unfold zrange. rewrite in_map_iff. split.
  - intros (k & <- & H). apply in_seq in H. lia.
  - intros H. exists (Z.to_nat i). split; [lia|]. apply in_seq. lia.
Qed.
Lemma zrange_sorted n : Sorted Z.lt (zrange n).
Proof.
  unfold zrange. generalize 0%nat. induction (Z.to_nat n) as [|k IH]; intros a; cbn [seq map]; constructor; [apply IH|].
  destruct k as [|k]; cbn [seq map]; constructor. lia.
Qed.

(** counters: value after a sequence of bumps *)
Lemma bump_fold l : forall f i, fold_left bump l f i mod 256 = (f i + Z.of_nat (length (filter (Z.eqb i) l))) mod 256.
Proof.
  induction l as [|k l IH]; intros f i; cbn [fold_left filter]; [cbn; now rewrite Z.add_0_r|].
  rewrite IH. unfold bump. destruct (Z.eqb_spec i k) as [->|H].
  - cbn [length]. rewrite Zplus_mod_idemp_l. f_equal. lia.
  - reflexivity.
Qed.
Lemma bump_range l : forall f, (forall i, 0 <= f i < 256) -> forall i, 0 <= fold_left bump l f i < 256.
Proof.
  induction l as [|k l IH]; intros f Hf i; cbn [fold_left]; [apply Hf|]. apply IH. intros j. unfold bump.
  destruct (j =? k); [apply Z.mod_pos_bound; lia|apply Hf].
Qed.
Lemma fold_left_app' A B (f : A -> B -> A) l m a : fold_left f (l ++ m) a = fold_left f m (fold_left f l a).
Proof. apply fold_left_app. Qed.

Definition domFacets (D : list Z) (es : list selt) : list Z :=
  flat_map (fun e => if smem (s_dom e) D then map fst (s_facets e) else []) es.

Lemma openFold D : forall es cnt x0 x1 x2,
  exists x0' x1' x2', fold_left (openStep D) es (cnt, (x0, x1, x2)) = (fold_left bump (domFacets D es) cnt, (x0', x1', x2')) /\
   (forall i, In i x0' <-> In i x0 \/ exists e, In e es /\ ~ inDomain D e /\ s_index e = i) /\
   (forall i, In i x1' <-> In i x1 \/ exists e, In e es /\ ~ inDomain D e /\ hasFacet e i) /\
   (forall i, In i x2' <-> In i x2 \/ exists e, In e es /\ ~ inDomain D e /\ hasVertex e i).
Proof.
  induction es as [|e es IH]; intros cnt x0 x1 x2; cbn [fold_left].
  - exists x0, x1, x2. split; [reflexivity|]. repeat split; try tauto; intros [H|(e & [] & _)]; exact H.
  - cbn [openStep]. unfold domFacets. cbn [flat_map]. fold (domFacets D es).
    destruct (smem (s_dom e) D) eqn:Em.
    + destruct (IH (fold_left bump (map fst (s_facets e)) cnt) x0 x1 x2) as (y0 & y1 & y2 & E & H0 & H1 & H2).
      exists y0, y1, y2. rewrite E, fold_left_app'. split; [reflexivity|]. apply smem_In in Em.
      assert (K : forall (P : selt -> Prop), (exists e', In e' (e :: es) /\ ~ inDomain D e' /\ P e') <-> (exists e', In e' es /\ ~ inDomain D e' /\ P e')).
      { intros P. split; intros (e' & Hi & Hn & HP); [|exists e'; auto with datatypes].
        destruct Hi as [<-|Hi]; [contradiction|]. exists e'. auto. }
      
      split; [intros i; rewrite H0, K; reflexivity|]. split; intros i; [rewrite H1, K|rewrite H2, K]; reflexivity.
    + destruct (IH cnt (sinsert (s_index e) x0) (fold_left (fun s x => sinsert x s) (map fst (s_facets e)) x1)
         (fold_left (fun s x => sinsert x s) (s_verts e) x2)) as (y0 & y1 & y2 & E & H0 & H1 & H2).
      exists y0, y1, y2. rewrite E. split; [reflexivity|]. apply smem_false in Em.
      assert (K : forall (P : selt -> Prop), (exists e', In e' (e :: es) /\ ~ inDomain D e' /\ P e') <-> P e \/ (exists e', In e' es /\ ~ inDomain D e' /\ P e')).
      { intros P. split.
        - intros (e' & Hi & Hn & HP). destruct Hi as [<-|Hi]; [now left|]. right. exists e'. auto.
        - intros [H|(e' & Hi & Hn & HP)]; [exists e|exists e']; auto with datatypes. }
      split; [intros i; rewrite H0, K, in_sinsert; intuition|].
      split; intros i; [rewrite H1, K, in_fold_sinsert|rewrite H2, K, in_fold_sinsert]; unfold hasFacet, hasVertex; intuition.
Qed.

Lemma childrenFold B : forall es x2 i,
  In i (fold_left (fun s e => fold_left (fun s fc => if smem (fst fc) B then fold_left (fun s x => sinsert x s) (snd fc) s else s)
                         (s_facets e) s) es x2)
  <-> In i x2 \/ exists e f, In e es /\ In f (s_facets e) /\ In (fst f) B /\ In i (snd f).
Proof.
  assert (F : forall fs s i, In i (fold_left (fun s fc => if smem (fst fc) B then fold_left (fun s x => sinsert x s) (snd fc) s else s) fs s)
     <-> In i s \/ exists f : Z * list Z, In f fs /\ In (fst f) B /\ In i (snd f)).
  { induction fs as [|f fs IH]; intros s i; cbn [fold_left]; [split; [tauto|intros [H|(f & [] & _)]; exact H]|].
    rewrite IH. destruct (smem (fst f) B) eqn:E.
    - apply smem_In in E. rewrite in_fold_sinsert. split.
      + intros [[H|H]|(f' & H1 & H2)]; [right; exists f; auto with datatypes|now left|right; exists f'; split; [now right|exact H2]].
      + intros [H|(f' & [<-|H1] & H2)]; [tauto|tauto|right; exists f'; auto].
    - apply smem_false in E. split.
      + intros [H|(f' & H1 & H2)]; [now left|right; exists f'; split; [now right|exact H2]].
      + intros [H|(f' & [<-|H1] & H2)]; [now left|tauto|right; exists f'; auto]. }
  induction es as [|e es IH]; intros x2 i; cbn [fold_left]; [split; [tauto|intros [H|(e & f & [] & _)]; exact H]|].
  rewrite IH, F. split.
  - intros [[H|(f & H)]|(e' & f & H1 & H2)]; [now left|right; exists e, f; split; [now left|exact H]|right; exists e', f; split; [now right|exact H2]].
  - intros [H|(e' & f & [<-|H1] & H2)]; [tauto|left; right; exists f; exact H2|right; exists e', f; auto].
Qed.

Lemma boundary_count D es i :
  (fold_left bump (domFacets D es) (fun _ => 0) i =? 1) = (Z.of_nat (length (filter (Z.eqb i) (domFacets D es))) mod 256 =? 1).
Proof.
  pose proof (bump_fold (domFacets D es) (fun _ => 0) i) as H.
  pose proof (bump_range (domFacets D es) (fun _ => 0) ltac:(intros; lia) i) as R.
  rewrite Z.mod_small in H by exact R. rewrite H. rewrite Z.add_0_l. reflexivity.
Qed.

Lemma open_spec g D i :
  let o := openDomain g D in
  (holds o 0 i <-> 0 <= i < g_n0 g /\ forall e, In e (g_elts g) -> s_index e = i -> inDomain D e) /\
  (holds o 1 i <-> 0 <= i < g_n1 g /\ (forall e, In e (g_elts g) -> hasFacet e i -> inDomain D e) /\
      Z.of_nat (incidence g D i) mod 256 <> 1) /\
  (holds o 2 i <-> 0 <= i < g_n2 g /\ (forall e, In e (g_elts g) -> hasVertex e i -> inDomain D e) /\
      forall e f, In e (g_elts g) -> In f (s_facets e) -> In i (snd f) -> 0 <= fst f < g_n1 g ->
        Z.of_nat (incidence g D (fst f)) mod 256 <> 1) /\
  (forall c, counts o c = gridCounts g c).
Proof.
  cbn zeta. unfold openDomain.
  destruct (openFold D (g_elts g) (fun _ => 0) [] [] []) as (x0 & x1 & x2 & E & H0 & H1 & H2). rewrite E.
  set (B := filter _ (zrange (g_n1 g))).
  assert (HB : forall j, In j B <-> 0 <= j < g_n1 g /\ Z.of_nat (incidence g D j) mod 256 = 1).
  { intros j. unfold B. rewrite filter_In, in_zrange, boundary_count, Z.eqb_eq. unfold incidence. reflexivity. }
  clearbody B. rewrite !holds_iff by lia. cbn [counts excluded gridCounts].
  assert (DN : forall (P : selt -> Prop), (~ exists e, In e (g_elts g) /\ ~ inDomain D e /\ P e) <-> (forall e, In e (g_elts g) -> P e -> inDomain D e)).
  { intros P. split.
    - intros H e Hi HP. destruct (in_dec Z.eq_dec (s_dom e) D) as [Hd|Hd]; [exact Hd|]. exfalso. apply H. exists e. auto.
    - intros H (e & Hi & Hn & HP). apply Hn. now apply H. }
  split; [|split; [|split; [|reflexivity]]].
  - rewrite H0. cbn [In]. rewrite <- (DN (fun e => s_index e = i)). tauto.
  - rewrite in_fold_sinsert, H1, HB. cbn [In]. rewrite <- (DN (fun e => hasFacet e i)). split; [|tauto].
    intros [Hr H]. split; [exact Hr|]. tauto.
  - rewrite childrenFold, H2. cbn [In]. rewrite <- (DN (fun e => hasVertex e i)). split.
    + intros [Hr H]. split; [exact Hr|]. split; [tauto|]. intros e f He Hf Hi Hfr Hc. apply H. right.
      exists e, f. repeat (split; [assumption|]). split; [|exact Hi]. apply HB. auto.
    + intros (Hr & Hn & Hf). split; [exact Hr|]. intros [[[]|H]|(e & f & He & Hff & Hb & Hi)]; [tauto|].
      apply HB in Hb. eapply Hf; eauto; tauto.
Qed.

Lemma closedFold D : forall es x0 a1 a2,
  exists x0' a1' a2', fold_left (closedStep D) es (x0, a1, a2) = (x0', a1', a2') /\
   (forall i, In i x0' <-> In i x0 \/ exists e, In e es /\ ~ inDomain D e /\ s_index e = i) /\
   (forall i, In i a1' <-> In i a1 \/ exists e, In e es /\ inDomain D e /\ hasFacet e i) /\
   (forall i, In i a2' <-> In i a2 \/ exists e, In e es /\ inDomain D e /\ hasVertex e i).
Proof.
  induction es as [|e es IH]; intros x0 a1 a2; cbn [fold_left].
  - exists x0, a1, a2. split; [reflexivity|]. repeat split; try tauto; intros [H|(e & [] & _)]; exact H.
  - cbn [closedStep].
    assert (K : forall (Q P : selt -> Prop), (exists e', In e' (e :: es) /\ Q e' /\ P e') <-> (Q e /\ P e) \/ (exists e', In e' es /\ Q e' /\ P e')).
    { intros Q P. split.
      - intros (e' & Hi & Hn & HP). destruct Hi as [<-|Hi]; [now left|]. right. exists e'. auto.
      - intros [H|(e' & Hi & Hn & HP)]; [exists e|exists e']; auto with datatypes. }
    destruct (smem (s_dom e) D) eqn:Em.
    + apply smem_In in Em.
      destruct (IH x0 (map fst (s_facets e) ++ a1) (s_verts e ++ a2)) as (y0 & y1 & y2 & E & H0 & H1 & H2).
      exists y0, y1, y2. rewrite E. split; [reflexivity|].
      assert (Hd : inDomain D e) by exact Em.
      split; [intros i; rewrite H0, (K (fun e' => ~ inDomain D e')); tauto|].
      split; intros i; [rewrite H1, (K (inDomain D))|rewrite H2, (K (inDomain D))]; rewrite in_app_iff;
        [change (In i (map fst (s_facets e))) with (hasFacet e i)|change (In i (s_verts e)) with (hasVertex e i)]; tauto.
    + apply smem_false in Em.
      destruct (IH (sinsert (s_index e) x0) a1 a2) as (y0 & y1 & y2 & E & H0 & H1 & H2).
      exists y0, y1, y2. rewrite E. split; [reflexivity|].
      assert (Hd : ~ inDomain D e) by exact Em.
      split; [intros i; rewrite H0, (K (fun e' => ~ inDomain D e')), in_sinsert; intuition|].
      split; intros i; [rewrite H1, (K (inDomain D))|rewrite H2, (K (inDomain D))]; tauto.
Qed.
Lemma closed_spec g D i :
  let o := closedDomain g D in
  (holds o 0 i <-> 0 <= i < g_n0 g /\ forall e, In e (g_elts g) -> s_index e = i -> inDomain D e) /\
  (holds o 1 i <-> 0 <= i < g_n1 g /\ exists e, In e (g_elts g) /\ inDomain D e /\ hasFacet e i) /\
  (holds o 2 i <-> 0 <= i < g_n2 g /\ exists e, In e (g_elts g) /\ inDomain D e /\ hasVertex e i) /\
  (forall c, counts o c = gridCounts g c).
Proof.
  cbn zeta. unfold closedDomain.
  destruct (closedFold D (g_elts g) [] [] []) as (x0 & a1 & a2 & E & H0 & H1 & H2). rewrite E.
  rewrite !holds_iff by lia. cbn [counts excluded gridCounts].
  split; [|split; [|split; [|reflexivity]]].
  - rewrite H0. cbn [In]. split.
    + intros [Hr H]. split; [exact Hr|]. intros e He Ei. destruct (in_dec Z.eq_dec (s_dom e) D) as [Hd|Hd]; [exact Hd|].
      exfalso. apply H. right. exists e. auto.
    + intros [Hr H]. split; [exact Hr|]. intros [[]|(e & He & Hn & Ei)]. apply Hn. now apply H.
  - rewrite filter_In, in_zrange, negb_true_iff, smem_false, H1. cbn [In].
    destruct (in_dec Z.eq_dec i a1) as [Hi|Hi]; rewrite H1 in Hi; cbn [In] in Hi; tauto.
  - rewrite filter_In, in_zrange, negb_true_iff, smem_false, H2. cbn [In].
    destruct (in_dec Z.eq_dec i a2) as [Hi|Hi]; rewrite H2 in Hi; cbn [In] in Hi; tauto.
Qed.

(** pigeonhole: distinct indices in range cover the range *)
Lemma index_covered g i : gridOk g -> 0 <= i < g_n0 g -> exists e, In e (g_elts g) /\ s_index e = i.
Proof.
  intros (Hnd & Hr & _) Hi.
  assert (Hin : In i (map s_index (g_elts g))).
  { assert (Hincl : incl (zrange (g_n0 g)) (map s_index (g_elts g))).
    { apply NoDup_length_incl; [exact Hnd| |].
      - rewrite map_length. unfold zrange, g_n0. rewrite map_length, seq_length. lia.
      - intros x Hx. apply in_map_iff in Hx. destruct Hx as (e & <- & He). apply in_zrange. now apply Hr. }
    apply Hincl. now apply in_zrange. }
  apply in_map_iff in Hin. destruct Hin as (e & E & He). exists e. auto.
Qed.
Lemma index_unique g e e' : gridOk g -> In e (g_elts g) -> In e' (g_elts g) -> s_index e = s_index e' -> e = e'.
Proof.
  intros (Hnd & _) H H' E. revert Hnd H H'. generalize (g_elts g). induction l as [|a l IH]; intros Hnd H H'; [destruct H|].
  cbn in Hnd. inversion Hnd as [|? ? Hn Hd]; subst. destruct H as [->|H], H' as [->|H'].
  - reflexivity.
  - exfalso. apply Hn. rewrite E. now apply in_map.
  - exfalso. apply Hn. rewrite <- E. now apply in_map.
  - now apply IH.
Qed.

Lemma holds_decided s c i : (c < 4)%nat -> holds s c i \/ contains s (Z.of_nat c) i = Some false.
Proof. intros Hc. destruct (contains_iff s c i Hc) as [_ H]. unfold holds. destruct (contains s (Z.of_nat c) i) as [[|]|]; auto; right; apply H; discriminate. Qed.

Lemma openFold_sorted D : forall es cnt x0 x1 x2, Sorted Z.lt x0 -> Sorted Z.lt x1 -> Sorted Z.lt x2 ->
  match fold_left (openStep D) es (cnt, (x0, x1, x2)) with (_, (y0, y1, y2)) => Sorted Z.lt y0 /\ Sorted Z.lt y1 /\ Sorted Z.lt y2 end.
Proof.
  induction es as [|e es IH]; intros cnt x0 x1 x2 H0 H1 H2; cbn [fold_left]; [auto|].
  cbn [openStep]. destruct (smem (s_dom e) D); apply IH; auto using sinsert_sorted, fold_sinsert_sorted.
Qed.
Lemma children_sorted B : forall es s, Sorted Z.lt s ->
  Sorted Z.lt (fold_left (fun s e =>
               fold_left (fun s fc => if smem (fst fc) B
                                      then fold_left (fun s x => sinsert x s) (snd fc) s else s)
                         (s_facets e) s) es s).
Proof.
  induction es as [|e es IH]; intros s H; cbn [fold_left]; [exact H|]. apply IH. clear IH.
  revert s H. induction (s_facets e) as [|f fs IHf]; intros s H; cbn [fold_left]; [exact H|]. apply IHf.
  destruct (smem (fst f) B); [now apply fold_sinsert_sorted|exact H].
Qed.
Lemma open_wf g D : gridOk g -> wellFormed (openDomain g D).
Proof.
  intros (Hnd & G0 & G1 & G2 & G3) c. unfold openDomain.
  pose proof (@openFold_sorted D (g_elts g) (fun _ => 0) [] [] [] ltac:(constructor) ltac:(constructor) ltac:(constructor)) as S.
  destruct (openFold D (g_elts g) (fun _ => 0) [] [] []) as (x0 & x1 & x2 & E & H0 & H1 & H2). rewrite E in S |- *.
  destruct S as (S0 & S1 & S2). cbn [excluded]. destruct c as [|[|[|c]]].
  - split; [exact S0|]. intros x Hx. apply H0 in Hx. destruct Hx as [[]|(e & He & _ & <-)]. now apply G0.
  - split; [now apply fold_sinsert_sorted|]. intros x Hx. apply in_fold_sinsert in Hx. destruct Hx as [Hx|Hx].
    + apply filter_In in Hx. destruct Hx as [Hx _]. apply in_zrange in Hx. lia.
    + apply H1 in Hx. destruct Hx as [[]|(e & He & _ & Hx)]. now apply (G1 e).
  - split; [now apply children_sorted|]. intros x Hx. apply childrenFold in Hx. destruct Hx as [Hx|(e & f & He & Hf & _ & Hx)].
    + apply H2 in Hx. destruct Hx as [[]|(e & He & _ & Hx)]. now apply (G2 e).
    + apply (G2 e); [exact He|]. eapply G3; eauto.
  - split; [constructor|intros x []].
Qed.
Lemma closedFold_sorted D : forall es x0 a1 a2, Sorted Z.lt x0 ->
  match fold_left (closedStep D) es (x0, a1, a2) with (y0, _, _) => Sorted Z.lt y0 end.
Proof.
  induction es as [|e es IH]; intros x0 a1 a2 H0; cbn [fold_left]; [auto|].
  cbn [closedStep]. destruct (smem (s_dom e) D); apply IH; auto using sinsert_sorted.
Qed.
Lemma closed_wf g D : gridOk g -> wellFormed (closedDomain g D).
Proof.
  intros (Hnd & G0 & G1 & G2 & G3) c. unfold closedDomain.
  pose proof (@closedFold_sorted D (g_elts g) [] [] [] ltac:(constructor)) as S.
  destruct (closedFold D (g_elts g) [] [] []) as (x0 & x1 & x2 & E & H0 & H1 & H2). rewrite E in S |- *.
  cbn [excluded]. destruct c as [|[|[|c]]].
  - split; [exact S|]. intros x Hx. apply H0 in Hx. destruct Hx as [[]|(e & He & _ & <-)]. now apply G0.
  - split; [apply filter_sorted, zrange_sorted|]. intros x Hx. apply filter_In in Hx. destruct Hx as [Hx _]. apply in_zrange in Hx. lia.
  - split; [apply filter_sorted, zrange_sorted|]. intros x Hx. apply filter_In in Hx. destruct Hx as [Hx _]. apply in_zrange in Hx. lia.
  - split; [constructor|intros x []].
Qed.
