(** The vector spaces on the refinement. *)
From Coq Require Import Reals Lra Sorted.
From Verif Require Import Base ComplexR SegModel SegSpec SegProofs AsmModel AsmSpec SpaceModel SpaceSpec SpaceProofs SpaceP1Proofs
  PolySpec SpaceRwgProofs VecModel VecSpec VecProofs VecProofs2 VecProofs3 LagModel BaryModel BarySpec BaryProofs BaryProofs2 BaryProofs3.
Set Implicit Arguments.
Unset Strict Implicit.
Local Open Scope R_scope.

(** ---- shape functions ---- *)
Lemma cross_son T i : (i < 6)%nat -> cross (jt (sonTri T i) 0) (jt (sonTri T i) 1) = vscale (1 / 6) (cross (jt T 0) (jt T 1)).
Proof.
  intro H. destruct T as [[x0 y0 z0] [x1 y1 z1] [x2 y2 z2]].
  sons i; cbn [jt sonTri c0 c1 c2]; unfold cross, vscale, vsub, midpointOf, centreOf; cbn [vx vy vz]; apply vec_eq; cbn [vx vy vz]; field.
Qed.
Lemma ie_son T i : (i < 6)%nat -> integrationElement (sonTri T i) = integrationElement T / 6.
Proof.
  intro H. unfold integrationElement. rewrite !gram_cross, cross_son by exact H.
  replace (dot (vscale (1 / 6) (cross (jt T 0) (jt T 1))) (vscale (1 / 6) (cross (jt T 0) (jt T 1)))) with ((1 / 6) * (1 / 6) * dot (cross (jt T 0) (jt T 1)) (cross (jt T 0) (jt T 1)))
    by (unfold dot, vscale; cbn [vx vy vz]; ring).
  rewrite sqrt_mult by (try apply dot_nonneg; lra). rewrite sqrt_square by lra. field.
Qed.
Lemma proper_son T i : (i < 6)%nat -> proper T -> proper (sonTri T i).
Proof.
  intros H P E. change (cross (jt (sonTri T i) 0) (jt (sonTri T i) 1) = vzero) in E. rewrite cross_son in E by exact H. apply P.
  change (cross (jt T 0) (jt T 1) = vzero). destruct (cross (jt T 0) (jt T 1)) as [a b c]. unfold vscale, vzero in *. cbn in E. injection E as E1 E2 E3. f_equal; lra.
Qed.
Lemma normal_son T i : (i < 6)%nat -> proper T -> normal (sonTri T i) = normal T.
Proof.
  intros H P. assert (I := ie_pos P). rewrite !normal_eq, cross_son, ie_son by exact H. apply vec_eq; cbn [vscale vx vy vz]; field; lra.
Qed.
Definition basisOf (i j : nat) : nat := nth j (element2Basis i) 0%nat.
Ltac dofs3 j := destruct j as [|[|[|j]]]; [| | |lia].
Lemma hdiv_son T i j q : (i < 6)%nat -> (j < 3)%nat -> proper T ->
  hdivValue (sonTri T i) (baryRt (Nat.even i) j q) = hdivValue T (rtValue (basisOf i j) (sonPoint i q)).
Proof.
  intros Hi Hj P. assert (I := ie_pos P). rewrite !hdiv_eq, ie_son by exact Hi. set (e := integrationElement T) in *. destruct q as (x, y).
  destruct T as [[x0 y0 z0] [x1 y1 z1] [x2 y2 z2]].
  sons i; dofs3 j; cbn [jt sonTri c0 c1 c2 basisOf element2Basis nth Nat.even baryRt rtCoeffs get3 seq fold_left rtValue sonPoint]; unfold vadd, vscale, vsub, midpointOf, centreOf; cbn [vx vy vz]; apply vec_eq; cbn [vx vy vz]; field; lra.
Qed.
Lemma hcurl_son T i j q : (i < 6)%nat -> (j < 3)%nat -> proper T ->
  hcurlValue (sonTri T i) (baryNc (Nat.even i) j q) = hcurlValue T (ncValue (basisOf i j) (sonPoint i q)).
Proof.
  intros Hi Hj P. rewrite (nc_rotates_rt P), <- hdiv_son, <- (normal_son Hi P) by assumption.
  rewrite <- (rotate (proper_son Hi P)). reflexivity.
Qed.
(** ---- sums ---- *)
Lemma vector_sum (val val' : nat -> vec) i (c0 c1 c2 : R) cs cs' : (i < 6)%nat ->
  (forall j, (j < 3)%nat -> val' j = val (basisOf i j)) ->
  (forall k, (k < 3)%nat -> nth_error cs k = Some (nth k [c0; c1; c2] 0)) ->
  (forall j, (j < 3)%nat -> nth_error cs' j = Some (nth (basisOf i j) [c0; c1; c2] 0)) ->
  exists v, sumShapes val cs 3 = Some v /\ sumShapes val' cs' 3 = Some v.
Proof.
  intros Hi V A B. rewrite (@sum3 val cs _ _ _ (A 0%nat ltac:(lia)) (A 1%nat ltac:(lia)) (A 2%nat ltac:(lia))).
  rewrite (@sum3 val' cs' _ _ _ (B 0%nat ltac:(lia)) (B 1%nat ltac:(lia)) (B 2%nat ltac:(lia))). eexists. split; [reflexivity|]. f_equal.
  rewrite !V by lia. sons i; cbn [basisOf element2Basis nth]; apply vec_eq; cbn [vadd vscale vx vy vz vzero]; ring.
Qed.

(** ---- numbering ---- *)
Local Open Scope Z_scope.
Section Numbering.
Variables (g : sgrid) (len : Z -> R).
Hypotheses (G : gridOk g) (T : triangles g) (IM : g_n0 g <= INT_MAX).
Notation n := (Z.to_nat (g_n1 g)).
Lemma edges_of e : In e (g_elts g) -> edges3 e = Some (map fst (s_facets e)).
Proof. intro I. destruct (T I) as (L & _). unfold edges3. destruct (s_facets e) as [|f0 [|f1 [|f2 [|]]]]; try discriminate. reflexivity. Qed.
Lemma scan_counts s : forall es, incl es (g_elts g) -> forall st st', ofold (rwgElement s false) es st = Some st' ->
  ofold (fun cnt e => es <- edges3 e ;; ofold (fun cnt i => n <- zget cnt i ;; zset cnt i (n + 1)%Z) es cnt) es (rs_adj st) = Some (rs_adj st') /\
  ofold (fun low e => es <- edges3 e ;; ofold (fun low i => n <- zget low i ;; zset low i (Z.min (s_index e) n)) es low) es (rs_low st) = Some (rs_low st').
Proof.
  induction es as [|e es IH]; intros I st st' E; cbn [ofold] in *; [injection E as ->; auto|].
  rewrite (edges_of (I e (or_introl eq_refl))). cbn [obind].
  destruct (rwgElement s false st e) as [st1|] eqn:E1; cbn [obind] in E; [|discriminate].
  destruct (IH (fun x H => I x (or_intror H)) _ _ E) as (A & B). clear IH E.
  unfold rwgElement in E1. destruct (contains s 0 (s_index e)) as [c|]; cbn [obind] in E1; [|discriminate].
  assert (K : forall fs st st1, ofold (rwgEdge s false (s_index e) c) fs st = Some st1 ->
     ofold (fun cnt i => n <- zget cnt i ;; zset cnt i (n + 1)%Z) fs (rs_adj st) = Some (rs_adj st1) /\
     ofold (fun low i => n <- zget low i ;; zset low i (Z.min (s_index e) n)) fs (rs_low st) = Some (rs_low st1)).
  { clear. induction fs as [|f fs IH]; intros st st1 E; cbn [ofold] in *; [injection E as ->; auto|].
    destruct (rwgEdge s false (s_index e) c st f) as [st2|] eqn:E2; cbn [obind] in E; [|discriminate].
    destruct (IH _ _ E) as (A & B). unfold rwgEdge in E2. destruct (contains s 1 f); cbn [obind andb] in E2; [|discriminate].
    destruct (zget (rs_adj st) f) as [a|]; cbn [obind] in *; [|discriminate]. destruct (zset (rs_adj st) f (a + 1)) as [adj'|]; cbn [obind] in *; [|discriminate].
    destruct (if c then zset (rs_no st) f false else Some (rs_no st)); cbn [obind] in *; [|discriminate].
    destruct (zget (rs_low st) f) as [lo|]; cbn [obind] in *; [|discriminate]. rewrite Z.min_comm. destruct (zset (rs_low st) f (Z.min lo (s_index e))); cbn [obind] in *; [|discriminate].
    injection E2 as <-. cbn [rs_adj rs_low] in *. auto. }
  destruct (K _ _ _ E1) as (K1 & K2). rewrite K1, K2. cbn [obind]. auto.
Qed.
Lemma counts_spec : exists cnt low, faceCounts g = Some cnt /\ lowestElements g = Some low /\ length cnt = n /\ length low = n /\
  forall i, 0 <= i < g_n1 g -> zget cnt i = Some (Z.of_nat (length (sidesOn g i))) /\ zget low i = Some (fold_left Z.min (map fst (sidesOn g i)) INT_MAX).
Proof.
  pose proof G as (_ & RI & RE & _).
  set (s := wholeGrid g).
  destruct (@scan_spec s false n (flat_map (eventsOf s) (g_elts g)) (RwgScan (repeat INT_MAX n) (repeat 0 n) (repeat true n)))
    as (st & ES & L1 & L2 & L3 & P); cbn [rs_low rs_adj rs_no]; try apply repeat_length.
  { intros x I. apply in_flat_map in I as (e & I & J). unfold eventsOf in J. apply in_map_iff in J as (f & <- & J).
    cbn. assert (0 <= fst f < g_n1 g) by (apply (RE e); [exact I|]; unfold hasFacet; now apply in_map). lia. }
  rewrite <- scan_events in ES. destruct (scan_counts (incl_refl _) ES) as (A & B). cbn [rs_low rs_adj rs_no] in *.
  exists (rs_adj st), (rs_low st). split; [exact A|]. split; [exact B|]. split; [exact L2|]. split; [exact L1|].
  intros i R. destruct (P i 0 INT_MAX true) as (X & Y & _); try (apply zget_repeat; lia). cbv zeta in *. unfold counted in *. cbn [negb orb] in *.
  set (mi := filter (onEdge i) (flat_map (eventsOf s) (g_elts g))) in *.
  pose proof (events_sides s g i) as Q. fold mi in Q.
  assert (Q1 : length mi = length (sidesOn g i)) by (apply (f_equal (@length _)) in Q; now rewrite !map_length in Q).
  assert (Q2 : map evIdx mi = map fst (sidesOn g i)) by (apply (f_equal (map fst)) in Q; rewrite !map_map in Q; exact Q).
  rewrite X, Y, Q1, Q2. split; f_equal; lia.
Qed.
Lemma numberTwos_zeros : forall cnt c, numberTwos cnt c = numberZeros (map (fun x => if x =? 2 then 0 else -1) cnt) c.
Proof.
  induction cnt as [|a cnt IH]; intro c; cbn [numberTwos map numberZeros]; [reflexivity|]. destruct (a =? 2).
  - change (0 =? 0) with true. cbv iota. now rewrite IH.
  - change (-1 =? 0) with false. cbv iota. now rewrite IH.
Qed.
(** the dof of edge i according to the list of numbered edges *)
Definition dofIs (edges : list Z) (i d : Z) : Prop := d = -1 /\ ~ In i edges \/ 0 <= d /\ nth_error edges (Z.to_nat d) = Some i.
Definition isLowest (i low : Z) : Prop := In low (map fst (sidesOn g i)) /\ forall x, In x (sidesOn g i) -> low <= fst x.
Definition signed (low : Z) (e : selt) (i : Z) : R := if low =? s_index e then len i else (- len i)%R.
Lemma dofIs_unique edges i d d' : NoDup edges -> dofIs edges i d -> dofIs edges i d' -> d = d'.
Proof.
  intros N [(-> & A)|(A & B)] [(-> & A')|(A' & B')]; auto.
  - exfalso. apply A. eapply nth_error_In; eauto.
  - exfalso. apply A'. eapply nth_error_In; eauto.
  - assert (Z.to_nat d = Z.to_nat d'); [|lia]. apply (proj1 (NoDup_nth_error edges) N); [apply nth_error_Some; congruence|congruence].
Qed.
Lemma SS_NoDup (l : list Z) : StronglySorted Z.lt l -> NoDup l.
Proof. induction 1 as [|a l S IH F]; constructor; [|exact IH]. intro I. rewrite Forall_forall in F. specialize (F _ I). lia. Qed.
Lemma lowest_unique i l l' : isLowest i l -> isLowest i l' -> l = l'.
Proof.
  intros (A & B) (A' & B'). apply in_map_iff in A as (x & <- & X). apply in_map_iff in A' as (x' & <- & X'). pose proof (B _ X'). pose proof (B' _ X). lia.
Qed.
Lemma facet_range e k i : In e (g_elts g) -> sideIs e k i -> 0 <= i < g_n1 g.
Proof. intros I S. destruct G as (_ & _ & RE & _). apply (RE e); [exact I|]. unfold hasFacet. eapply nth_error_In; eauto. Qed.

(** the coarse space *)
Lemma plain_core : exists (m : dofmap Rsr) edges, rwgSpace g len (wholeGrid g) = Some m /\ consistent m /\ StronglySorted Z.lt edges /\ length edges = globalDofCount m /\
  (forall i, In i edges <-> 0 <= i < g_n1 g /\ (2 <= length (sidesOn g i))%nat) /\
  forall e k i, In e (g_elts g) -> sideIs e k i -> exists d low, globalDof m (s_index e) k d /\ dofIs edges i d /\
     dofWeight m (s_index e) k (signed low e i) /\ isLowest i low.
Proof.
  destruct (@rwg_core Rsr g len (wholeGrid g) false true false G (whole_fits' g) T eq_refl IM) as (m & edges & E & C & FE & SS & LE & IE & GL & WT).
  exists m, edges. split; [exact E|]. split; [exact C|]. split; [exact SS|]. split; [exact LE|].
  assert (IE' : forall i, In i edges <-> 0 <= i < g_n1 g /\ (2 <= length (sidesOn g i))%nat).
  { intro i. rewrite IE. unfold rwgEdgeHasDof. rewrite whole_holds by lia. cbn [gridCounts]. split; [tauto|]. intros (A & B). split; [exact A|]. split; [auto|]. split; [exact B|discriminate]. }
  split; [exact IE'|].
  assert (AS : forall i, activeSides g (wholeGrid g) false i = sidesOn g i).
  { intro i. unfold activeSides. cbn [negb orb]. clear. induction (sidesOn g i); cbn; congruence. }
  intros e k i I S. pose proof C as (C1 & C2 & C3). destruct (WT e k i I S) as (low & W & LO).
  destruct (proj2 (C2 (s_index e) k)) as (d & D); [eauto|]. exists d, low. split; [exact D|]. split; [|split; [exact W|]].
  - destruct (C1 _ _ _ D) as [-> | R].
    + left. split; [reflexivity|]. intro J. apply In_nth_error in J as (x & N).
      destruct (C3 x) as (l & A & _ & B). { rewrite <- LE. apply nth_error_Some. congruence. }
      rewrite (GL x i N), AS in A. injection A as <-. pose proof (in_sidesOn I S) as X. apply B in X.
      destruct D as (ds & P & Q), X as (ds' & P' & Q'). assert (ds' = ds) by congruence. subst. assert (Z.of_nat x = (-1)%Z) by congruence. lia.
    + right. split; [lia|]. destruct (C3 (Z.to_nat d)) as (l & A & _ & B); [lia|].
      rewrite Z2Nat.id in B by lia. apply B in D. destruct (nth_error edges (Z.to_nat d)) as [i'|] eqn:N.
      * rewrite (GL _ _ N), AS in A. injection A as <-. apply sidesOn_inv in D as (x & J & EX & S'). assert (x = e) by (apply (index_unique g); auto).
        subst x. unfold sideIs in *. congruence.
      * apply nth_error_None in N. lia.
  - apply LO. intros _. apply whole_holds; [lia|]. exact (facet_range I S).
Qed.
Variable son : Z -> nat -> Z.
Hypothesis SN : sonNumbering (g_n0 g) son.
Lemma bary_core : exists b edges, baryVectorSpace son g len = Some b /\ consistent (b_map b) /\ flatEnumerates (b_map b) /\ StronglySorted Z.lt edges /\ length edges = globalDofCount (b_map b) /\
  (forall i, In i edges <-> 0 <= i < g_n1 g /\ length (sidesOn g i) = 2%nat) /\
  forall e i j edge, In e (g_elts g) -> (i < 6)%nat -> (j < 3)%nat -> sideIs e (basisOf i j) edge ->
     zget (b_type b) (son (s_index e) i) = Some (Nat.even i) /\
     exists d low, globalDof (b_map b) (son (s_index e) i) j d /\ dofIs edges edge d /\
       dofWeight (b_map b) (son (s_index e) i) j (signed low e edge) /\ isLowest edge low.
Proof.
  destruct counts_spec as (cnt & low & EC & EL & LC & LL & P). unfold baryVectorSpace. rewrite EC, EL. cbn [obind].
  rewrite numberTwos_zeros. set (marks := map (fun x => if x =? 2 then 0 else -1) cnt).
  destruct (numberZeros marks 0) as [dofE count] eqn:EN.
  destruct (@numberZeros_spec marks 0 0 dofE count) as (LD & C2 & P2); [lia|exact EN|].
  set (edges := zerosFrom 0 marks) in *.
  assert (LM : length marks = n) by (unfold marks; now rewrite map_length).
  assert (MK : forall i, 0 <= i < g_n1 g -> zget marks i = Some (if Z.of_nat (length (sidesOn g i)) =? 2 then 0 else -1)).
  { intros i R. unfold marks. rewrite zget_map. destruct (P i R) as (-> & _). reflexivity. }
  assert (IE : forall i, In i edges <-> 0 <= i < g_n1 g /\ length (sidesOn g i) = 2%nat).
  { intro i. unfold edges. rewrite in_zerosFrom, Z.sub_0_r. split.
    - intros (R0 & E). pose proof (zget_lt _ _ E) as R. assert (R' : 0 <= i < g_n1 g) by lia. split; [exact R'|]. rewrite (MK i R') in E.
      destruct (Z.eqb_spec (Z.of_nat (length (sidesOn g i))) 2); [lia|discriminate].
    - intros (R & H). split; [lia|]. rewrite (MK i R), H. reflexivity. }
  set (dv := fun v => match zget dofE v with Some d => d | None => -1 end).
  set (lv := fun v => match zget low v with Some d => d | None => -1 end).
  assert (DV : forall i, 0 <= i < g_n1 g -> zget dofE i = Some (dv i) /\ dofIs edges i (dv i) /\ dv i < Z.of_nat (Z.to_nat count) /\ -1 <= dv i).
  { intros i R. pose proof (MK i R) as E. unfold zget in E. destruct (Z.ltb_spec i 0); [lia|]. destruct (P2 _ _ E) as (A & B). unfold dv, zget. destruct (Z.ltb_spec i 0); [lia|].
    destruct (Z.eqb_spec (Z.of_nat (length (sidesOn g i))) 2) as [Q|Q].
    - destruct (B eq_refl) as (d & D1 & D2 & D3). rewrite D1. split; [reflexivity|]. split; [right; split; [lia|]|lia]. rewrite Z.sub_0_r in D3. rewrite D3. f_equal. lia.
    - rewrite A by lia. split; [reflexivity|]. split; [left; split; [reflexivity|]|lia]. rewrite IE. intros (_ & X). lia. }
  assert (LV : forall e k i, In e (g_elts g) -> sideIs e k i -> zget low i = Some (lv i) /\ isLowest i (lv i)).
  { intros e k i I S. pose proof (facet_range I S) as R. destruct (P i R) as (_ & Q). unfold lv. rewrite Q. split; [reflexivity|].
    assert (LT : forall x, In x (map fst (sidesOn g i)) -> x <= INT_MAX).
    { intros x X. apply in_map_iff in X as ([a b] & <- & X). apply sidesOn_inv in X as (e' & I' & <- & _). destruct G as (_ & RI & _). specialize (RI e' I'). cbn. lia. }
    destruct (@fold_min_spec _ _ LT) as (X1 & X2 & _). split; [|intros x X; apply X1; now apply in_map].
    apply X2. pose proof (in_sidesOn I S) as X. intro Q'. apply (in_map fst) in X. rewrite Q' in X. destruct X. }
  set (edge := fun e k => nth k (map fst (s_facets e)) 0).
  assert (ED : forall e k, In e (g_elts g) -> (k < 3)%nat -> sideIs e k (edge e k)).
  { intros e k I Hk. destruct (T I) as (L & _). unfold sideIs, edge. apply nth_error_nth'. rewrite map_length. lia. }
  set (mk := fun p : selt * nat => let e := fst p in let i := snd p in
    Row (son (s_index e) i) (map (fun j => dv (edge e (basisOf i j))) (seq 0 3)) (map (fun j => signed (lv (edge e (basisOf i j))) e (edge e (basisOf i j))) (seq 0 3)) [0; 1; 2]%nat (Nat.even i)).
  assert (BL : forall i j, (i < 6)%nat -> (j < 3)%nat -> (basisOf i j < 3)%nat).
  { intros i j Hi Hj. sons i; dofs3 j; cbn; lia. }
  destruct (@build g son (Z.to_nat count) G SN _ (sonPairs g) (fun p => p) mk (map_id _)) with (f := vectorRow son len dofE low) as (b & EB & CB & CC & FE & RB).
  - intros (e, i) I. apply in_sonPairs in I as (I & Hi). split; [|reflexivity]. split; [|split; [|split]]; cbn [r_dofs r_w r_push mk].
    + intros d J. apply in_map_iff in J as (j & <- & J). apply in_seq in J. cbn [fst snd].
      destruct (DV (edge e (basisOf i j))) as (_ & _ & U & W). { apply (@facet_range e (basisOf i j)); [exact I|]. apply ED; [exact I|]. apply BL; lia. }
      lia.
    + now rewrite !map_length.
    + repeat constructor; cbn; lia.
    + intro l. rewrite map_length, seq_length. cbn. lia.
  - intros (e, i) I. apply in_sonPairs in I as (I & Hi). unfold vectorRow. rewrite (edges_of I). cbn [obind].
    assert (X : oseq (map (fun j => b <- nth_error (element2Basis i) j ;; nth_error (map fst (s_facets e)) b) (seq 0 3)) = Some (map (fun j => edge e (basisOf i j)) (seq 0 3))).
    { apply SpaceProofs.oseq_map. intros j J. apply in_seq in J. assert (Y : nth_error (element2Basis i) j = Some (basisOf i j)).
      { unfold basisOf. apply nth_error_nth'. sons i; cbn; lia. }
      rewrite Y. cbn [obind]. apply ED; [exact I|]. apply BL; lia. }
    rewrite X. cbn [obind]. rewrite map_map. rewrite (@SpaceProofs.oseq_map _ _ (fun j => zget dofE (edge e (basisOf i j))) (fun j => dv (edge e (basisOf i j)))).
    2:{ intros j J. apply in_seq in J. apply DV. apply (@facet_range e (basisOf i j)); [exact I|]. apply ED; [exact I|]. apply BL; lia. }
    cbn [obind]. rewrite map_map. rewrite (@SpaceProofs.oseq_map _ _ _ (fun j => signed (lv (edge e (basisOf i j))) e (edge e (basisOf i j)))).
    2:{ intros j J. apply in_seq in J. destruct (LV e (basisOf i j) (edge e (basisOf i j)) I) as (-> & _); [apply ED; [exact I|]; apply BL; lia|]. reflexivity. }
    reflexivity.
  - exists b, edges. split; [exact EB|]. split; [exact CC|]. split; [exact FE|]. split; [apply zerosFrom_sorted|]. split; [rewrite CB; lia|]. split; [exact IE|].
    intros e i j ed I Hi Hj S. destruct (RB (e, i)) as (R1 & R2 & R3); [now apply in_sonPairs|]. cbn [fst snd mk r_dofs r_w r_type] in *.
    split; [exact R3|]. assert (Q : ed = edge e (basisOf i j)). { pose proof (ED e (basisOf i j) I (BL i j Hi Hj)) as X. unfold sideIs in *. congruence. }
    exists (dv ed), (lv ed). destruct (DV ed (facet_range I S)) as (_ & D & _). destruct (LV e _ ed I S) as (_ & L).
    split; [|split; [exact D|split; [|exact L]]].
    + eexists. split; [exact R1|]. rewrite nth_error_map, (nth_error_nth' _ 0%nat) by (rewrite seq_length; lia). rewrite seq_nth by lia. cbn [option_map Nat.add]. now rewrite Q.
    + eexists. split; [exact R2|]. rewrite nth_error_map, (nth_error_nth' _ 0%nat) by (rewrite seq_length; lia). rewrite seq_nth by lia. cbn [option_map Nat.add]. now rewrite Q.
Qed.
Lemma vector_core : manifold g -> exists (m : dofmap Rsr) b, rwgSpace g len (wholeGrid g) = Some m /\ baryVectorSpace son g len = Some b /\
  globalDofCount (b_map b) = globalDofCount m /\ consistent (b_map b) /\ flatEnumerates (b_map b) /\
  forall u pos e Tr i q, length u = globalDofCount m -> In e (g_elts g) -> cornersOf pos e = Some Tr -> proper Tr -> (i < 6)%nat ->
    (exists v, evaluateHdiv pos m u e (sonPoint i q) = Some v /\ evalBaryHdiv b u (son (s_index e) i) (sonTri Tr i) q = Some v) /\
    (exists v, evaluateHcurl pos m u e (sonPoint i q) = Some v /\ evalBaryHcurl b u (son (s_index e) i) (sonTri Tr i) q = Some v).
Proof.
  intros MF. destruct plain_core as (m & edges & E & C & SS & LE & IE & P). destruct bary_core as (b & edges' & E' & C' & FE' & SS' & LE' & IE' & P').
  assert (Q : edges' = edges).
  { apply sortedZ_unique; auto. intro i. rewrite IE, IE'. specialize (MF i). intuition lia. }
  subst edges'. exists m, b. split; [exact E|]. split; [exact E'|]. split; [congruence|]. split; [exact C'|]. split; [exact FE'|].
  intros u pos e Tr i q LU I CT PT Hi.
  assert (LU' : length u = globalDofCount (b_map b)) by congruence.
  assert (SD : forall k, (k < 3)%nat -> exists x, sideIs e k x).
  { intros k Hk. destruct (T I) as (L & _). unfold sideIs. destruct (nth_error (map fst (s_facets e)) k) eqn:X; [eauto|]. apply nth_error_None in X. rewrite map_length in X. lia. }
  assert (BL : forall j, (j < 3)%nat -> (basisOf i j < 3)%nat).
  { intros j Hj. clear -Hi Hj. sons i; dofs3 j; cbn; lia. }
  destruct (SD 0%nat) as (x0 & S0); [lia|].
  destruct (P e 0%nat x0 I S0) as (d0 & l0 & D0 & _ & W0 & _).
  destruct (@local_coefficients m u (s_index e) C LU) as (cs & Ecs & Pcs); [eauto|].
  destruct (SD (basisOf i 0)) as (y0 & Y0); [apply BL; lia|].
  destruct (P' e i 0%nat y0 I Hi ltac:(lia) Y0) as (TY & d0' & l0' & D0' & _ & W0' & _).
  destruct (@local_coefficients (b_map b) u (son (s_index e) i) C' LU') as (cs' & Ecs' & Pcs'); [eauto|].
  assert (CO : forall k, (k < 3)%nat -> exists c, nth_error cs k = Some c /\ forall j, (j < 3)%nat -> basisOf i j = k -> nth_error cs' j = Some c).
  { intros k Hk. destruct (SD k Hk) as (x & S). destruct (P e k x I S) as (d & l & D & DI & W & LO). exists (coefficient u d * signed l e x)%R. split; [now apply Pcs|].
    intros j Hj <-. destruct (P' e i j x I Hi Hj S) as (_ & d' & l' & D' & DI' & W' & LO').
    assert (d' = d) by (eapply dofIs_unique; eauto; now apply SS_NoDup). assert (l' = l) by (eapply lowest_unique; eauto). subst. now apply Pcs'. }
  destruct (CO 0%nat) as (a0 & A0 & B0); [lia|]. destruct (CO 1%nat) as (a1 & A1 & B1); [lia|]. destruct (CO 2%nat) as (a2 & A2 & B2); [lia|].
  assert (CA : forall k, (k < 3)%nat -> nth_error cs k = Some (nth k [a0; a1; a2] 0%R)) by (intros k Hk; dofs3 k; assumption).
  assert (CB : forall j, (j < 3)%nat -> nth_error cs' j = Some (nth (basisOf i j) [a0; a1; a2] 0%R)).
  { intros j Hj. specialize (BL j Hj). destruct (basisOf i j) as [|[|[|k]]] eqn:Q; [| | |lia]; cbn [nth]; auto. }
  split.
  - unfold evaluateHdiv, evalBaryHdiv. rewrite CT, Ecs, Ecs', TY. cbn [obind].
    apply (@vector_sum _ _ i a0 a1 a2); auto. intros j Hj. now apply hdiv_son.
  - unfold evaluateHcurl, evalBaryHcurl. rewrite CT, Ecs, Ecs', TY. cbn [obind].
    apply (@vector_sum _ _ i a0 a1 a2); auto. intros j Hj. now apply hcurl_son.
Qed.
End Numbering.
