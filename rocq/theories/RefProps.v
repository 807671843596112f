(** C157-C163: local refinement of grids. *)
From Coq Require Import Reals ZArith List Bool Arith Lia Lra.
Import ListNotations.
From Verif Require Import Base BoxModel AccModel RefModel RefSpec RefProofs RefProofs2 RefProofs3 RefProofs4.
Set Implicit Arguments.
Unset Strict Implicit.

Definition validMarks (g : view) (m : list nat) : Prop := forall i, In i m -> i < length (v_elements g).

(** C157: refine ends, whichever marked element set.pop returns: no sequence of turns is longer than the numbers of elements and
    marks together, none is stuck, and so there is a result *)
Theorem C157_refine_ends : forall g m, wellFormed g -> validMarks g m ->
  (forall k s, rsteps g k (rstart g m) s -> k <= length (v_elements g) + length m /\ (r_marked s <> [] -> exists s', rstep g s s')) /\
  exists g', refines g (Some m) (Returns g').
Proof.
  intros g m WF MK. assert (S0 : sane g (rstart g m)) by exact MK.
  assert (B : forall k s, rsteps g k (rstart g m) s -> k <= length (v_elements g) + length m).
  { intros k s H. destruct (steps_fuel WF S0 H) as [_ L]. unfold fuel in L at 2. cbn [r_marked rstart] in L.
    assert (open g (rstart g m) <= length (v_elements g)). { unfold open. rewrite <- (seq_length (length (v_elements g)) 0) at 2. apply (@filter_len_le nat (fun _ => _) (fun _ => true)) || idtac.
      generalize (seq 0 (length (v_elements g))). intros l. induction l as [|a l IH]; cbn [filter length]; [lia|]. destruct (isNone _); cbn [length]; lia. }
    lia. }
  split.
  - intros k s H. split; [now apply (B k s)|]. intros NE. destruct (r_marked s) as [|i l] eqn:E; [congruence|]. exists (turn g s i). constructor. rewrite E. now left.
  - assert (X : forall w s, fuel g s <= w -> sane g s -> exists k s', rsteps g k s s' /\ r_marked s' = []).
    { induction w as [|w IH]; intros s F S.
      - exists 0, s. split; [constructor|]. unfold fuel in F. destruct (r_marked s); [reflexivity|cbn in F; lia].
      - destruct (r_marked s) as [|i l] eqn:E; [exists 0, s; split; [constructor|exact E]|].
        assert (Hi : In i (r_marked s)) by (rewrite E; now left). pose proof (turn_fuel S Hi) as T.
        destruct (IH (turn g s i) ltac:(lia) (turn_sane WF S Hi)) as (k & s' & R & D). exists (Datatypes.S k), s'. split; [|exact D]. apply RMore with (s' := turn g s i); [now constructor|exact R]. }
    destruct (X _ _ (le_n _) S0) as (k & s & R & D). exists (rebuilt g s), k, s. auto.
Qed.

Lemma refined_state g m g' : wellFormed g -> surface g -> validMarks g m -> refines g (Some m) (Returns g') -> exists s, inv g m s /\ r_marked s = [] /\ g' = rebuilt g s.
Proof.
  intros WF SF MK (k & s & R & D & [= ->]). exists s. split; [|auto]. apply (steps_inv WF SF MK (s := rstart g m) (k := k)); auto. now apply inv_start.
Qed.

(** C158: the refined grid is again a surface, with proper arrays; it is closed if the grid was *)
Theorem C158_surface : forall g m g', wellFormed g -> surface g -> validMarks g m -> refines g (Some m) (Returns g') ->
  wellFormed g' /\ surface g' /\ (closedSurface g -> closedSurface g').
Proof.
  intros g m g' WF SF MK R. destruct (refined_state WF SF MK R) as (s & IV & D & ->). split; [now apply (final_wf WF IV)|]. apply (final_surface WF SF IV D).
Qed.

(** C159: the bisected edges are the smallest set of edges that contains the reference edges of the marked elements and the
    reference edge of every element of which it contains an edge *)
Lemma reference_key g i : wellFormed g -> i < length (v_elements g) -> exists a b, referenceEdge g i a b /\ keyOf g i (refEdge g i) = edgeOf a b.
Proof.
  intros WF Li. pose proof (@refEdge_bound g WF i Li) as LR. destruct WF as (_ & W & _).
  assert (E1 : nth_error (v_elements g) i = Some (element g i)) by (apply nth_error_nth'; exact Li). assert (E2 : nth_error (v_ref g) i = Some (refEdge g i)) by (apply nth_error_nth'; lia).
  unfold referenceEdge. rewrite E1, E2. unfold keyOf. destruct (element g i) as [[x y] z], (refEdge g i) as [|[|[|r]]]; [| | |lia].
  - exists x, y. split; [|reflexivity]. eexists. eexists. split; [reflexivity|]. split; [reflexivity|]. reflexivity.
  - exists z, x. split; [|apply edgeOf_sym]. eexists. eexists. split; [reflexivity|]. split; [reflexivity|]. reflexivity.
  - exists y, z. split; [|reflexivity]. eexists. eexists. split; [reflexivity|]. split; [reflexivity|]. reflexivity.
Qed.
Lemma key_reference g i a b : wellFormed g -> referenceEdge g i a b -> i < length (v_elements g) /\ keyOf g i (refEdge g i) = edgeOf a b.
Proof.
  intros WF (t & r & E1 & E2 & H). assert (Li : i < length (v_elements g)) by (apply nth_error_Some; congruence). split; [exact Li|].
  pose proof (@refEdge_bound g WF i Li) as LR. unfold keyOf, element, refEdge in *. rewrite (nth_error_nth _ _ _ E1), (nth_error_nth _ _ _ E2) in *.
  destruct r as [|[|[|r]]]; [| | |lia]; rewrite H; cbn; first [reflexivity|apply edgeOf_sym].
Qed.
Lemma bisected_new g m s a b : wellFormed g -> inv g m s -> r_marked s = [] -> (bisected (v_elements g) (v_elements (rebuilt g s)) a b <-> a <> b /\ In (edgeOf a b) (r_new s)).
Proof.
  intros WF IV D.
  assert (P : forall t, In t (v_elements g) -> has [a; b] t = true -> a < length (v_vertices g) /\ b < length (v_vertices g)).
  { intros t Ht H. rewrite has_ok in H. destruct WF as (_ & _ & _ & W). destruct (W t Ht) as [_ W']. split; apply W', H; cbn; auto. }
  split.
  - intros (N & H1 & H2). split; [exact N|]. rewrite sharing_has in H1. destruct (filter _ _) as [|t l] eqn:F; [cbn in H1; lia|]. assert (I : In t (t :: l)) by now left. rewrite <- F in I. apply filter_In in I.
    destruct (P t (proj1 I) (proj2 I)) as [La Lb]. rewrite (old_pair WF IV D N La Lb) in H2. destruct (edge_in_dec _ _) as [Q|Q]; [exact Q|]. rewrite sharing_has, F in H2. discriminate.
  - intros [N I]. destruct (inv_edges IV I) as (i & j & Li & Lj & E).
    assert (H : isEdge (element g i) a b) by (apply has_isEdge; [now apply element_nodup|]; exists j; auto). destruct H as (_ & Ha & Hb).
    assert (HT : has [a; b] (element g i) = true) by (apply has_ok; intros c [<-|[<-|[]]]; assumption).
    destruct (P _ (element_in Li) HT) as [La Lb]. split; [exact N|]. split.
    + rewrite sharing_has. assert (X : In (element g i) (filter (has [a; b]) (v_elements g))) by (apply filter_In; split; [now apply element_in|exact HT]). destruct (filter _ _); [destruct X|cbn; lia].
    + rewrite (old_pair WF IV D N La Lb). now destruct (edge_in_dec _ _).
Qed.
Theorem C159_smallest : forall g m g' a b, wellFormed g -> surface g -> validMarks g m -> refines g (Some m) (Returns g') -> 
  (bisected (v_elements g) (v_elements g') a b <-> a <> b /\ forall P, closedSet g m P -> P a b).
Proof.
  intros g m g' a b WF SF MK R. destruct (refined_state WF SF MK R) as (s & IV & D & ->). rewrite (bisected_new a b WF IV D). split; (intros [N H]; split; [exact N|]).
  - intros P (P1 & P2 & P3). destruct (@inv_least g m s IV (fun e => P (fst e) (snd e))) as [Q _].
    + intros i Hi. destruct (reference_key WF (MK i Hi)) as (x & y & RE & ->). unfold edgeOf. cbn [fst snd]. pose proof (P2 i x y Hi RE) as Q. destruct (Nat.le_ge_cases x y); [rewrite Nat.min_l, Nat.max_r by assumption; exact Q|rewrite Nat.min_r, Nat.max_l by assumption; now apply P1].
    + intros i j Li Lj Q. destruct (reference_key WF Li) as (x & y & RE & ->). unfold edgeOf. cbn [fst snd].
      destruct (edge_ends g s (element_nodup WF Li) Lj) as [NE EE]. fold (keyOf g i j) in NE, EE.
      assert (IE : isEdge (element g i) (fst (keyOf g i j)) (snd (keyOf g i j))) by (apply has_isEdge; [now apply element_nodup|]; exists j; auto).
      assert (E1 : nth_error (v_elements g) i = Some (element g i)) by (apply nth_error_nth'; exact Li).
      pose proof (P3 i _ _ _ x y E1 IE Q RE) as Z. destruct (Nat.le_ge_cases x y); [rewrite Nat.min_l, Nat.max_r by assumption; exact Z|rewrite Nat.min_r, Nat.max_l by assumption; now apply P1].
    + specialize (Q _ H). unfold edgeOf in Q. cbn [fst snd] in Q. destruct (Nat.le_ge_cases a b); [rewrite Nat.min_l, Nat.max_r in Q by assumption; exact Q|rewrite Nat.min_r, Nat.max_l in Q by assumption; now apply P1].
  - apply (H (fun x y => In (edgeOf x y) (r_new s))). split; [|split].
    + intros x y Q. now rewrite edgeOf_sym.
    + intros i x y Hi RE. destruct (key_reference WF RE) as [Li E]. rewrite <- E. destruct (inv_marked IV Hi) as [C|C]; [rewrite D in C; destruct C|].
      destruct (edge_in_dec (keyOf g i (refEdge g i)) (r_new s)) as [Q|Q]; [exact Q|]. apply (@none_iff g m s i (refEdge g i) IV Li (refEdge_bound WF Li)) in Q. contradiction.
    + intros i t x y c d E1 IE Q RE. destruct (key_reference WF RE) as [Li E]. rewrite <- E.
      assert (ET : element g i = t) by (apply nth_error_nth; exact E1). subst t. apply has_isEdge in IE; [|now apply element_nodup]. destruct IE as (j & Lj & K).
      assert (Z : r_list s i j <> None) by (intros C; apply (@none_iff g m s i j IV Li Lj) in C; apply C; unfold keyOf; now rewrite K).
      pose proof (closed_all IV D Li Lj Z) as Y.
      destruct (edge_in_dec (keyOf g i (refEdge g i)) (r_new s)) as [W|W]; [exact W|]. apply (@none_iff g m s i (refEdge g i) IV Li (refEdge_bound WF Li)) in W. contradiction.
Qed.
(** ... so the order in which the elements are popped does not matter *)
Theorem C159_order : forall g m g1 g2, wellFormed g -> surface g -> validMarks g m -> refines g (Some m) (Returns g1) -> refines g (Some m) (Returns g2) ->
  (forall a b, bisected (v_elements g) (v_elements g1) a b <-> bisected (v_elements g) (v_elements g2) a b) /\ length (v_vertices g1) = length (v_vertices g2).
Proof.
  intros g m g1 g2 WF SF MK R1 R2. assert (E : forall a b, bisected (v_elements g) (v_elements g1) a b <-> bisected (v_elements g) (v_elements g2) a b).
  { intros a b. rewrite (C159_smallest a b WF SF MK R1), (C159_smallest a b WF SF MK R2). reflexivity. }
  split; [exact E|]. destruct (refined_state WF SF MK R1) as (s1 & I1 & D1 & ->). destruct (refined_state WF SF MK R2) as (s2 & I2 & D2 & ->).
  cbn [rebuilt v_vertices]. rewrite !app_length, !map_length. f_equal.
  assert (X : forall s s', inv g m s -> r_marked s = [] -> inv g m s' -> r_marked s' = [] -> (forall a b, bisected (v_elements g) (v_elements (rebuilt g s)) a b -> bisected (v_elements g) (v_elements (rebuilt g s')) a b) -> length (r_new s) <= length (r_new s')).
  { intros s s' I D I' D' H. apply NoDup_incl_length; [apply I|]. intros e He. destruct (inv_edges I He) as (i & j & Li & Lj & K).
    destruct (edge_ends g s (element_nodup WF Li) Lj) as [NE EE]. fold (keyOf g i j) in NE, EE. rewrite K in NE, EE. rewrite <- EE. apply (bisected_new (fst e) (snd e) WF I' D'). apply H. apply (bisected_new (fst e) (snd e) WF I D). split; [exact NE|now rewrite EE]. }
  apply Nat.le_antisymm; apply X; auto; intros a b; apply E.
Qed.

(** C160: the new grid consists of blocks, one for each old element in the order of the elements.  The triangles of a block tile
    the element and are oriented like it; they inherit its domain index; a block is the element itself, with its reference edge,
    or consists of two to four triangles, the latter for marked elements.  Old vertices keep their place *)
Theorem C160_tiles : forall g m g', wellFormed g -> surface g -> validMarks g m -> refines g (Some m) (Returns g') ->
  (exists new, v_vertices g' = v_vertices g ++ new) /\
  exists blocks : list (list (tri * nat)), length blocks = length (v_elements g) /\ v_elements g' = map fst (concat blocks) /\ v_ref g' = map snd (concat blocks) /\
    v_domains g' = concat (map (fun db => repeat (fst db) (length (snd db))) (combine (v_domains g) blocks)) /\
    forall i t r b, nth_error (v_elements g) i = Some t -> nth_error (v_ref g) i = Some r -> nth_error blocks i = Some b ->
      tiles (v_vertices g') (map fst b) t /\ (b = [(t, r)] \/ 2 <= length b <= 4) /\ (In i m -> 2 <= length b).
Proof.
  intros g m g' WF SF MK R. destruct (refined_state WF SF MK R) as (s & IV & D & ->). split; [eexists; reflexivity|].
  exists (map (block g s) (seq 0 (length (v_elements g)))). split; [now rewrite map_length, seq_length|].
  split; [rewrite elements_blocks, flat_map_concat_map; reflexivity|]. split; [rewrite refs_blocks, flat_map_concat_map; reflexivity|]. split.
  - cbn [rebuilt v_domains]. rewrite flat_map_concat_map. f_equal. destruct WF as (W & _). rewrite <- W. set (f := block g s).
    assert (X : forall (l : list Z) k h, (forall i, h (k + i) = nth i l 0%Z) -> map (fun i => map (fun _ => h i) (f i)) (seq k (length l)) = map (fun db => repeat (fst db) (length (snd db))) (combine l (map f (seq k (length l))))).
    { induction l as [|z l IH]; intros k h H; [reflexivity|]. cbn [length seq map combine fst snd]. f_equal.
      - specialize (H 0). rewrite Nat.add_0_r in H. cbn in H. rewrite H. clear. induction (f k); [reflexivity|]. cbn. now f_equal.
      - apply IH. intros i. specialize (H (Datatypes.S i)). rewrite Nat.add_succ_r in H. exact H. }
    exact (X (v_domains g) 0 (fun i => nth i (v_domains g) 0%Z) (fun _ => eq_refl)).
  - intros i t r b E1 E2 E3. assert (Li : i < length (v_elements g)) by (apply nth_error_Some; congruence).
    rewrite nth_error_map in E3. assert (ES : nth_error (seq 0 (length (v_elements g))) i = Some i) by (rewrite nth_error_nth' with (d := 0) by (now rewrite seq_length); now rewrite seq_nth).
    rewrite ES in E3. cbn in E3. injection E3 as <-.
    assert (ET : element g i = t) by (apply nth_error_nth; exact E1). assert (ER : refEdge g i = r) by (apply nth_error_nth; exact E2). subst t r.
    destruct (block_ok WF IV Li) as (B1 & _ & B3 & B4). split; [exact B1|]. split; [exact B3|]. intros Hm. apply B4. destruct (inv_marked IV Hm) as [C|C]; [rewrite D in C; destruct C|exact C].
Qed.

(** C161: however often a grid is refined and whatever is marked, every triangle arises from one of the original triangles by
    newest vertex bisection, and its quality is at least a ninth of the quality of that one *)
Lemma shape_prefix vs new t r : (forall a, In a (corners t) -> a < length vs) -> shapeOf (vs ++ new) t r = shapeOf vs t r.
Proof.
  intros H. assert (A : forall i, at3 (vs ++ new) (corner t i) = at3 vs (corner t i)).
  { intros i. unfold at3. apply app_nth1. apply H. destruct t as [[x y] z], i as [|[|i]]; cbn; auto. }
  unfold shapeOf. rewrite !A. reflexivity.
Qed.
Theorem C161_quality : forall g g', history g g' -> wellFormed g -> surface g ->
  wellFormed g' /\ surface g' /\
  forall j t' r', nth_error (v_elements g') j = Some t' -> nth_error (v_ref g') j = Some r' ->
    exists i t r, nth_error (v_elements g) i = Some t /\ nth_error (v_ref g) i = Some r /\
      bisection (shapeOf (v_vertices g) t r) (shapeOf (v_vertices g') t' r') /\
      qualityAtLeast (1 / 9) (shapeOf (v_vertices g) t r) (shapeOf (v_vertices g') t' r').
Proof.
  intros g g' H WF SF.
  assert (X : wellFormed g' /\ surface g' /\ forall j t' r', nth_error (v_elements g') j = Some t' -> nth_error (v_ref g') j = Some r' ->
    exists i t r, nth_error (v_elements g) i = Some t /\ nth_error (v_ref g) i = Some r /\ bisection (shapeOf (v_vertices g) t r) (shapeOf (v_vertices g') t' r')).
  { induction H as [g|g g1 m g2 H IH MK R].
    - split; [exact WF|]. split; [exact SF|]. intros j t' r' E1 E2. exists j, t', r'. split; [exact E1|]. split; [exact E2|]. constructor.
    - destruct (IH WF SF) as (WF1 & SF1 & B). destruct (refined_state WF1 SF1 MK R) as (s & IV & D & ->). split; [now apply (final_wf WF1 IV)|]. split; [exact (proj1 (final_surface WF1 SF1 IV D))|].
      intros j t' r' E1 E2. rewrite elements_blocks, nth_error_map in E1. rewrite refs_blocks, nth_error_map in E2.
      destruct (nth_error (flat_map (block g1 s) (seq 0 (length (v_elements g1)))) j) as [[k q]|] eqn:E; [|discriminate]. cbn in E1, E2. injection E1 as <-. injection E2 as <-.
      apply nth_error_In in E. apply in_flat_map in E. destruct E as (i1 & Hi1 & E). apply in_seq in Hi1. assert (Li : i1 < length (v_elements g1)) by lia.
      destruct (block_ok WF1 IV Li) as (_ & B2 & _). destruct (B2 k q E) as [_ B3].
      assert (F1 : nth_error (v_elements g1) i1 = Some (element g1 i1)) by (apply nth_error_nth'; exact Li).
      assert (F2 : nth_error (v_ref g1) i1 = Some (refEdge g1 i1)) by (apply nth_error_nth'; destruct WF1 as (_ & W & _); lia).
      destruct (B _ _ _ F1 F2) as (i & t & r & G1 & G2 & G3). exists i, t, r. split; [exact G1|]. split; [exact G2|].
      apply (bisection_trans G3). rewrite <- (@shape_prefix (v_vertices g1) (map (fun e => midpoint (vertex g1 (fst e)) (vertex g1 (snd e))) (r_new s))); [exact B3|].
      intros a Ha. now apply (@element_bound g1 WF1 i1). }
  destruct X as (X1 & X2 & X3). split; [exact X1|]. split; [exact X2|]. intros j t' r' E1 E2. destruct (X3 j t' r' E1 E2) as (i & t & r & G1 & G2 & G3).
  exists i, t, r. split; [exact G1|]. split; [exact G2|]. split; [exact G3|]. now apply bisection_quality.
Qed.
(** the reference edges of a grid that was never refined are longest edges *)
Theorem C161_longest : forall vs els doms i t a b c d, nth_error els i = Some t -> referenceEdge (freshView vs els doms) i a b -> isEdge t c d ->
  (vnorm2 (vsub (at3 vs c) (at3 vs d)) <= vnorm2 (vsub (at3 vs a) (at3 vs b)))%R.
Proof.
  intros vs els doms i t a b c d Et (t' & r & E1 & E2 & H) IE. cbn [freshView v_elements v_ref] in E1, E2. rewrite Et in E1. injection E1 as <-.
  rewrite nth_error_map, Et in E2. cbn in E2. injection E2 as E2.
  set (L := fun e : edge => edgeLength vs e) in *.
  assert (M : forall x y z, let m := argmax3 x y z in (x <= nth m [x; y; z] 0 /\ y <= nth m [x; y; z] 0 /\ z <= nth m [x; y; z] 0)%R).
  { intros x y z. unfold argmax3. destruct (Rlt_dec x y), (Rlt_dec y z), (Rlt_dec x z); cbn; lra. }
  assert (SQ : forall p q, sqDist p q = vnorm2 (vsub p q)) by (intros; unfold sqDist, vnorm2, vsub, px, py, pz; cbn [fst snd]; ring).
  assert (SS : forall p q, sqDist p q = sqDist q p) by (intros; unfold sqDist, px, py, pz; ring).
  assert (NN : forall p q, (0 <= sqDist p q)%R) by (intros; rewrite SQ; apply norm_nonneg).
  assert (EL : forall x y, edgeLength vs (edgeOf x y) = sqrt (sqDist (at3 vs x) (at3 vs y))).
  { intros x y. unfold edgeLength, edgeOf, at3. cbn [fst snd]. destruct (Nat.le_ge_cases x y); [now rewrite Nat.min_l, Nat.max_r by assumption|]. rewrite Nat.min_r, Nat.max_l by assumption. now rewrite SS. }
  rewrite <- !SQ. destruct t as [[x y] z]. unfold freshReference, elementEdge in E2. cbn [duneEdge fst snd corner] in E2. rewrite !EL in E2.
  specialize (M (sqrt (sqDist (at3 vs x) (at3 vs y))) (sqrt (sqDist (at3 vs x) (at3 vs z))) (sqrt (sqDist (at3 vs y) (at3 vs z)))). cbv zeta in M. rewrite E2 in M.
  assert (W : forall p q p' q', (sqrt (sqDist p q) <= sqrt (sqDist p' q') -> sqDist p q <= sqDist p' q')%R) by (intros; now apply sqrt_le_0).
  assert (RB : r < 3) by (rewrite <- E2; unfold argmax3; destruct (Rlt_dec _ _), (Rlt_dec _ _); try lia; destruct (Rlt_dec _ _); lia).
  assert (G : (sqDist (at3 vs x) (at3 vs y) <= sqDist (at3 vs a) (at3 vs b) /\ sqDist (at3 vs x) (at3 vs z) <= sqDist (at3 vs a) (at3 vs b) /\ sqDist (at3 vs y) (at3 vs z) <= sqDist (at3 vs a) (at3 vs b))%R).
  { destruct r as [|[|[|r]]]; [| | |lia]; cbn [nth] in M; cbn [corner] in H; injection H; intros; subst; destruct M as (M1 & M2 & M3); repeat split; apply W; rewrite ?(SS (at3 vs a) (at3 vs b)); first [assumption | rewrite (SS (at3 vs b) (at3 vs a)); assumption | rewrite (SS (at3 vs a) (at3 vs b)) in *; assumption]. }
  destruct G as (G1 & G2 & G3). destruct IE as (NE & Hc & Hd). cbn in Hc, Hd.
  destruct Hc as [<-|[<-|[<-|[]]]], Hd as [<-|[<-|[<-|[]]]]; try congruence; try assumption; rewrite SS; assumption.
Qed.

(** C162: there are no hanging nodes: each new vertex is the midpoint of an edge of the old grid which is an edge of no element any
    more, and its halves are edges of as many elements as it was.  Proved for surfaces; what is missing is grids in which more
    than two elements meet in an edge, for which it is false (next theorem) *)
Theorem C162_no_hanging_nodes_partial : forall g m g', wellFormed g -> surface g -> validMarks g m -> refines g (Some m) (Returns g') ->
  exists edges, NoDup edges /\ v_vertices g' = v_vertices g ++ map (fun e => vscale (1 / 2) (vadd (at3 (v_vertices g) (fst e)) (at3 (v_vertices g) (snd e)))) edges /\
    forall k a b, nth_error edges k = Some (a, b) -> let c := length (v_vertices g) + k in
      a < b /\ (exists t, In t (v_elements g) /\ isEdge t a b) /\ sharing (v_elements g') [a; b] = 0 /\
      sharing (v_elements g') [a; c] = sharing (v_elements g) [a; b] /\ sharing (v_elements g') [b; c] = sharing (v_elements g) [a; b].
Proof.
  intros g m g' WF SF MK R. destruct (refined_state WF SF MK R) as (s & IV & D & ->). exists (r_new s). split; [apply IV|]. split.
  - cbn [rebuilt v_vertices]. f_equal. apply map_ext. intros e. apply midpoint_half.
  - intros k a b K. cbv zeta. assert (I : In (a, b) (r_new s)) by now apply nth_error_In in K. destruct (inv_edges IV I) as (i & j & Li & Lj & E). unfold keyOf in E.
    destruct (edge_ends g s (element_nodup WF Li) Lj) as [NE EE]. rewrite E in NE, EE. cbn [fst snd] in NE, EE.
    assert (LT : a < b) by (unfold edgeOf in EE; injection EE; lia). split; [exact LT|].
    assert (IE : isEdge (element g i) a b) by (apply has_isEdge; [now apply element_nodup|]; exists j; rewrite EE; auto).
    split; [exists (element g i); split; [now apply element_in|exact IE]|]. destruct IE as (_ & Ha & Hb).
    pose proof (@element_bound g WF i a Li Ha) as La. pose proof (@element_bound g WF i b Li Hb) as Lb.
    split; [rewrite (old_pair WF IV D NE La Lb); destruct (edge_in_dec _ _) as [Q|Q]; [reflexivity|rewrite EE in Q; contradiction]|].
    split; [apply (half_edge WF IV D La K); now left|apply (half_edge WF IV D Lb K); now right].
Qed.
(** three triangles that meet in their longest edge, made from arrays: when the first is marked, only two of them are bisected,
    and the third has the new vertex in the middle of its edge *)
Definition junctionVertices : list point := [(0, 0, 0); (4, 0, 0); (2, 1, 0); (2, -1, 0); (2, 0, 1)]%R.
Definition junction : view := freshView junctionVertices [(0, 1, 2); (0, 1, 3); (0, 1, 4)] [0; 0; 0]%Z.
Lemma junction_refs : v_ref junction = [0; 0; 0].
Proof.
  assert (A : forall x y z : R, (y < x)%R -> (z < x)%R -> argmax3 x y z = 0) by (intros x y z H1 H2; unfold argmax3; destruct (Rlt_dec x y); [lra|]; destruct (Rlt_dec x z); [lra|reflexivity]).
  unfold junction, freshView, freshReference. cbn [v_ref map]. unfold edgeLength, elementEdge, edgeOf. cbn [duneEdge corner fst snd Nat.min Nat.max nth junctionVertices].
  rewrite !A; try reflexivity; apply sqrt_lt_1; unfold sqDist, px, py, pz; cbn [fst snd]; lra.
Qed.
Lemma junction_wf : wellFormed junction.
Proof.
  split; [reflexivity|]. split; [reflexivity|]. rewrite junction_refs. split; [intros r H; cbn in H; intuition lia|].
  intros t H. cbn in H. repeat destruct H as [<-|H]; try destruct H; (split; [cbn; repeat constructor; cbn; intuition discriminate|intros a Ha; cbn in *; intuition lia]).
Qed.
Theorem C162_no_hanging_nodes_refuted : exists g m g', wellFormed g /\ validMarks g m /\ refines g (Some m) (Returns g') /\
  v_vertices g' = v_vertices g ++ [vscale (1 / 2) (vadd (at3 (v_vertices g) 0) (at3 (v_vertices g) 1))] /\ sharing (v_elements g') [0; 1] = 1.
Proof.
  exists junction, [0]. assert (RF : forall i, refEdge junction i = 0) by (intros i; unfold refEdge; rewrite junction_refs; destruct i as [|[|[|[|i]]]]; reflexivity).
  set (l := fun i j : nat => if ((i =? 0) || (i =? 1)) && (j =? 0) then Some 5 else None).
  assert (ST : exists s, rsteps junction 2 (rstart junction [0]) s /\ r_marked s = [] /\ r_new s = [(0, 1)] /\ forall i j, r_list s i j = l i j).
  { exists (turn junction (turn junction (rstart junction [0]) 0) 1).
    assert (T1 : r_marked (turn junction (rstart junction [0]) 0) = [1]) by (unfold turn; rewrite !RF; vm_compute; reflexivity).
    assert (T2 : r_list (turn junction (rstart junction [0]) 0) 1 0 = Some 5) by (unfold turn; rewrite !RF; vm_compute; reflexivity).
    assert (T3 : r_new (turn junction (rstart junction [0]) 0) = [(0, 1)]) by (unfold turn; rewrite !RF; vm_compute; reflexivity).
    assert (T4 : forall i j, r_list (turn junction (rstart junction [0]) 0) i j = l i j).
    { intros i j. unfold turn. rewrite !RF. cbn. unfold setEntry, l. destruct i as [|[|i]], j as [|j]; reflexivity. }
    split; [|split; [|split]].
    - apply RMore with (s' := turn junction (rstart junction [0]) 0); [constructor; now left|]. apply RMore with (s' := turn junction (turn junction (rstart junction [0]) 0) 1); [constructor; rewrite T1; now left|constructor].
    - unfold turn at 1. rewrite RF, T2. cbn [isNone r_marked]. now rewrite T1.
    - unfold turn at 1. rewrite RF, T2. exact T3.
    - intros i j. unfold turn at 1. rewrite RF, T2. apply T4. }
  destruct ST as (s & R & D & N & L). exists (rebuilt junction s). split; [exact junction_wf|]. split; [intros i [<-|[]]; cbn; lia|]. split; [exists 2, s; auto|]. split.
  - cbn [rebuilt v_vertices]. rewrite N. cbn [map fst snd]. now rewrite midpoint_half.
  - rewrite sharing_has. unfold rebuilt. cbn [v_elements]. unfold childrenOf.
    assert (C : forall i, children (element junction i) (refEdge junction i) (r_list s i) = children (element junction i) 0 (l i)).
    { intros i. rewrite RF. unfold children. rewrite !L. reflexivity. }
    rewrite (flat_map_ext _ (fun i => map fst (children (element junction i) 0 (l i)))) by (intros i; now rewrite C). vm_compute. reflexivity.
Qed.

(** C163: the set of marks is what was marked since it was last cleared, before anything is marked every element is unmarked.
    What is missing: get_mark once an element is marked, clear_marks and refine before any is (next theorem) *)
Theorem C163_marks_partial : (forall calls l, afterCalls calls = Returns (Some l) -> forall i, In i l <-> markedSinceClear calls i) /\ (forall i, getMark None i = Returns false) /\
  (forall calls, afterCalls calls = Raises -> exists rest, calls = Clear :: rest).
Proof.
  assert (AM : forall x l y, In y (addMark x l) <-> y = x \/ In y l).
  { intros x l y. unfold addMark. destruct (existsb (Nat.eqb x) l) eqn:E; cbn; [|intuition congruence]. apply existsb_exists in E. destruct E as (z & Hz & Ez). apply Nat.eqb_eq in Ez. subst z. intuition congruence. }
  split; [|split; [reflexivity|]].
  - intros calls. induction calls as [|c calls IH] using rev_ind; intros l E i; [discriminate|].
    unfold afterCalls in *. rewrite fold_left_app in E. cbn [fold_left] in E. unfold afterCall in E at 1. destruct (fold_left afterCall calls (Returns None)) as [[l0|]|] eqn:F; [| |discriminate].
    + specialize (IH l0 eq_refl i). destruct c as [j|]; cbn in E; injection E as <-.
      * rewrite AM, IH. split.
        -- intros [->|(l1 & l2 & -> & N)]; [exists calls, []; auto|]. exists l1, (l2 ++ [Mark j]). split; [now rewrite <- app_assoc|]. rewrite in_app_iff. cbn. intuition discriminate.
        -- intros (l1 & l2 & E & N). destruct l2 as [|c l2] using rev_ind; [apply app_inj_tail in E; destruct E as [_ E]; injection E as ->; now left|].
           clear IHl2. rewrite app_comm_cons, app_assoc in E. apply app_inj_tail in E. destruct E as [-> _]. right. exists l1, l2. split; [reflexivity|]. rewrite in_app_iff in N. tauto.
      * split; [intros []|]. intros (l1 & l2 & E & N). destruct l2 as [|c l2] using rev_ind; [apply app_inj_tail in E; destruct E; discriminate|].
        clear IHl2. rewrite app_comm_cons, app_assoc in E. apply app_inj_tail in E. destruct E as [_ <-]. apply N. rewrite in_app_iff. cbn. auto.
    + assert (Z : calls = []).
      { destruct calls as [|c0 calls]; [reflexivity|]. exfalso. clear - F. destruct c0; cbn in F.
        - assert (K : forall cs m, fold_left afterCall cs (Returns (Some m)) <> Returns None). { induction cs as [|[|] cs IH]; intros m; cbn; [discriminate| |]; apply IH. } now apply K in F.
        - assert (K : forall cs, fold_left afterCall cs Raises = Raises) by (induction cs; auto). rewrite K in F. discriminate. }
      subst calls. destruct c as [j|]; cbn in E; [|discriminate]. injection E as <-. split.
      * intros [<-|[]]. exists [], []. auto.
      * intros (l1 & l2 & E & N). destruct l1 as [|x l1]; [injection E as -> _; now left|]. destruct l1; discriminate.
  - intros [|[j|] calls] E; [discriminate| |eauto]. exfalso. cbn in E.
    assert (K : forall cs m, fold_left afterCall cs (Returns (Some m)) <> Raises). { induction cs as [|[|] cs IH]; intros m; cbn; [discriminate| |]; apply IH. } now apply K in E.
Qed.
Theorem C163_marks_refuted : (forall m i j, getMark (mark m i) j = Raises) /\ clearMarks None = Raises /\ (forall g o, refines g None o -> o = Raises).
Proof. split; [intros [l|] i j; reflexivity|]. split; [reflexivity|]. intros g o H. exact H. Qed.

(** ---- a concrete surface: two triangles of a square, one marked ---- *)
Definition squareVertices : list point := [(0, 0, 0); (1, 0, 0); (1, 1, 0); (0, 1, 0)]%R.
Definition square : view := View squareVertices [(0, 1, 2); (0, 2, 3)] [7; 8]%Z [0; 0].
Example square_ok : wellFormed square /\ surface square /\ validMarks square [0].
Proof.
  split; [|split].
  - split; [reflexivity|]. split; [reflexivity|]. split; [intros r H; cbn in H; intuition lia|].
    intros t H. cbn in H. repeat destruct H as [<-|H]; try destruct H; (split; [cbn; repeat constructor; cbn; intuition discriminate|intros a Ha; cbn in *; intuition lia]).
  - split.
    + intros a b _. rewrite sharing_has. cbn [square v_elements filter]. destruct (has [a; b] (0, 1, 2)), (has [a; b] (0, 2, 3)); cbn; lia.
    + intros a b c ND. rewrite sharing_has. cbn [square v_elements filter]. destruct (has [a; b; c] (0, 1, 2)) eqn:E1; [|destruct (has [a; b; c] (0, 2, 3)); cbn [length]; lia].
      destruct (has [a; b; c] (0, 2, 3)) eqn:E2; [|cbn [length]; lia]. exfalso. rewrite has_ok in E1, E2. inversion ND as [|? ? M1 ND']; subst. inversion ND' as [|? ? M2 _]; subst. cbn in M1, M2.
      pose proof (E1 a ltac:(cbn; auto)) as A1. pose proof (E1 b ltac:(cbn; auto)) as B1. pose proof (E1 c ltac:(cbn; auto)) as C1. pose proof (E2 a ltac:(cbn; auto)) as A2. pose proof (E2 b ltac:(cbn; auto)) as B2. pose proof (E2 c ltac:(cbn; auto)) as C2. cbn in A1, B1, C1, A2, B2, C2. lia.
  - intros i [<-|[]]. cbn. lia.
Qed.
(** element 0 is bisected at the edge of 0 and 1, at the boundary; element 1 stays *)
Example square_refined : exists g', refines square (Some [0]) (Returns g') /\ v_elements g' = [(4, 2, 0); (4, 1, 2); (0, 2, 3)] /\ v_domains g' = [7; 7; 8]%Z /\ v_ref g' = [2; 2; 0].
Proof.
  exists (rebuilt square (turn square (rstart square [0]) 0)). split; [|vm_compute; auto].
  exists 1, (turn square (rstart square [0]) 0). split; [|split; [vm_compute; reflexivity|reflexivity]]. apply RMore with (s' := turn square (rstart square [0]) 0); [constructor; now left|constructor].
Qed.
(** a tetrahedron is a closed surface *)
Example tetrahedron : closedSurface (View squareVertices [(0, 1, 2); (0, 3, 1); (1, 3, 2); (2, 3, 0)] [] []).
Proof.
  assert (B : forall a, a = 0 \/ a = 1 \/ a = 2 \/ a = 3 \/ 4 <= a) by (intros; lia).
  assert (Z : forall a l, 4 <= a -> In a l -> sharing [(0, 1, 2); (0, 3, 1); (1, 3, 2); (2, 3, 0)] l = 0).
  { intros a l La Hl. rewrite sharing_has. cbn [filter]. assert (H : forall x y z, x < 4 -> y < 4 -> z < 4 -> has l (x, y, z) = false).
    { intros x y z Lx Ly Lz. destruct (has l (x, y, z)) eqn:E; [|reflexivity]. rewrite has_ok in E. specialize (E a Hl). cbn in E. lia. }
    rewrite !H by lia. reflexivity. }
  split; [split|]; cbn [v_elements].
  - intros a b N. destruct (Nat.lt_ge_cases a 4) as [La|La]; [|rewrite (Z a) by (cbn; auto); lia]. destruct (Nat.lt_ge_cases b 4) as [Lb|Lb]; [|rewrite (Z b) by (cbn; auto); lia].
    destruct a as [|[|[|[|a]]]], b as [|[|[|[|b]]]]; try lia; vm_compute; lia.
  - intros a b c ND. inversion ND as [|? ? M1 ND']; subst. inversion ND' as [|? ? M2 _]; subst. cbn in M1, M2.
    destruct (Nat.lt_ge_cases a 4) as [La|La]; [|rewrite (Z a) by (cbn; auto); lia]. destruct (Nat.lt_ge_cases b 4) as [Lb|Lb]; [|rewrite (Z b) by (cbn; auto); lia]. destruct (Nat.lt_ge_cases c 4) as [Lc|Lc]; [|rewrite (Z c) by (cbn; auto); lia].
    destruct a as [|[|[|[|a]]]], b as [|[|[|[|b]]]]; try lia; destruct c as [|[|[|[|c]]]]; try lia; vm_compute; lia.
  - intros a b N. destruct (Nat.lt_ge_cases a 4) as [La|La]; [|rewrite (Z a) by (cbn; auto); lia]. destruct (Nat.lt_ge_cases b 4) as [Lb|Lb]; [|rewrite (Z b) by (cbn; auto); lia].
    destruct a as [|[|[|[|a]]]], b as [|[|[|[|b]]]]; try lia; vm_compute; auto.
Qed.
Example C163_example : afterCalls [Mark 1; Clear; Mark 2; Mark 5; Mark 2] = Returns (Some [5; 2]).
Proof. reflexivity. Qed.

Print Assumptions C157_refine_ends.
Print Assumptions C158_surface.
Print Assumptions C159_smallest.
Print Assumptions C159_order.
Print Assumptions C160_tiles.
Print Assumptions C161_quality.
Print Assumptions C161_longest.
Print Assumptions C162_no_hanging_nodes_partial.
Print Assumptions C162_no_hanging_nodes_refuted.
Print Assumptions C163_marks_partial.
Print Assumptions C163_marks_refuted.
