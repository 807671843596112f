From Coq Require Import Sorted.
From Verif Require Import Base SegModel SegSpec SegProofs AsmModel AsmSpec SpaceModel SpaceSpec SpaceProofs SpaceP1Proofs.
Set Implicit Arguments.
Local Open Scope Z_scope.

(** events: (element index, element contained, edge) in scan order *)
Definition event := (Z * bool * Z)%type.
Definition eventsOf (s : segment) (e : selt) : list event := map (fun f => (s_index e, inSeg s 0 (s_index e), fst f)) (s_facets e).
Definition evEdge (x : event) : Z := snd x.
Definition evIdx (x : event) : Z := fst (fst x).
Definition evIn (x : event) : bool := snd (fst x).
Definition rwgEvent (s : segment) (edgeOn : bool) (st : rwgScan) (x : event) : option rwgScan :=
  rwgEdge s edgeOn (evIdx x) (evIn x) st (evEdge x).
Lemma ofold_app A B (f : A -> B -> option A) l m a : ofold f (l ++ m) a = (x <- ofold f l a ;; ofold f m x).
Proof. revert a. induction l as [|b l IH]; intro a; cbn; [reflexivity|]. destruct (f a b); cbn; [apply IH|reflexivity]. Qed.
Lemma ofold_map A B C (f : A -> C -> option A) (h : B -> C) l a : ofold f (map h l) a = ofold (fun a x => f a (h x)) l a.
Proof. revert a. induction l as [|b l IH]; intro a; cbn; [reflexivity|]. destruct (f a (h b)); cbn; [apply IH|reflexivity]. Qed.
Lemma scan_events s edgeOn : forall es st,
  ofold (rwgElement s edgeOn) es st = ofold (rwgEvent s edgeOn) (flat_map (eventsOf s) es) st.
Proof.
  induction es as [|e es IH]; intro st; cbn [ofold flat_map]; [reflexivity|]. rewrite ofold_app.
  unfold rwgElement at 1. destruct (@inSeg_spec s 0 (s_index e)) as (C & _); [lia|]. cbn [Z.of_nat] in C. rewrite C. cbn [obind].
  unfold eventsOf. rewrite !ofold_map. unfold rwgEvent, evIdx, evIn, evEdge. cbn [fst snd].
  destruct (ofold _ (s_facets e) st); cbn [obind]; [apply IH|reflexivity].
Qed.
Definition counted (s : segment) (edgeOn : bool) (i : Z) : bool := negb edgeOn || inSeg s 1 i.
Definition onEdge (i : Z) (x : event) : bool := evEdge x =? i.
Lemma scan_spec s edgeOn n : forall evs st,
  (forall x, In x evs -> 0 <= evEdge x < Z.of_nat n) ->
  length (rs_low st) = n -> length (rs_adj st) = n -> length (rs_no st) = n ->
  exists st', ofold (rwgEvent s edgeOn) evs st = Some st' /\
   length (rs_low st') = n /\ length (rs_adj st') = n /\ length (rs_no st') = n /\
   forall i a l b, zget (rs_adj st) i = Some a -> zget (rs_low st) i = Some l -> zget (rs_no st) i = Some b ->
     let mine := if counted s edgeOn i then filter (onEdge i) evs else [] in
     zget (rs_adj st') i = Some (a + Z.of_nat (length mine)) /\
     zget (rs_low st') i = Some (fold_left Z.min (map evIdx mine) l) /\
     zget (rs_no st') i = Some (b && negb (existsb evIn mine)).
Proof.
  induction evs as [|x evs IH]; intros st R L1 L2 L3; cbn [ofold].
  - exists st. split; [reflexivity|]. do 3 (split; [assumption|]). intros i a l b A B C. cbv zeta.
    cbn [filter]. destruct (counted s edgeOn i); cbn; rewrite Z.add_0_r, andb_true_r; auto.
  - unfold rwgEvent at 1. unfold rwgEdge. destruct (@inSeg_spec s 1 (evEdge x)) as (C & _); [lia|]. change (Z.of_nat 1) with 1 in C. rewrite C. cbn [obind].
    assert (RX : 0 <= evEdge x < Z.of_nat n) by (apply R; now left).
    destruct (edgeOn && negb (inSeg s 1 (evEdge x))) eqn:SK.
    + (* skipped *)
      cbn [obind]. destruct (IH st) as (st' & E & A1 & A2 & A3 & A4); auto. { intros; apply R; now right. }
      exists st'. split; [exact E|]. do 3 (split; [assumption|]). intros i a l b A B D. specialize (A4 i a l b A B D).
      cbv zeta in *. cbn [filter]. destruct (counted s edgeOn i) eqn:CT; [|exact A4].
      assert (N : onEdge i x = false).
      { unfold onEdge. apply Z.eqb_neq. intros <-. unfold counted in CT. destruct edgeOn, (inSeg s 1 (evEdge x)); discriminate. }
      rewrite N. exact A4.
    + assert (CT : counted s edgeOn (evEdge x) = true) by (unfold counted; destruct edgeOn, (inSeg s 1 (evEdge x)); auto).
      destruct (zget_Some (rs_adj st) (evEdge x)) as (a0 & G1); [lia|]. rewrite G1. cbn [obind].
      destruct (zset_Some (rs_adj st) (evEdge x) (a0 + 1)) as (adj' & S1); [lia|]. rewrite S1. cbn [obind].
      destruct (zget_Some (rs_no st) (evEdge x)) as (b0 & G3); [lia|].
      assert (X : exists no', (if evIn x then zset (rs_no st) (evEdge x) false else Some (rs_no st)) = Some no' /\ length no' = n /\
         forall i, zget no' i = if (i =? evEdge x) && evIn x then Some false else zget (rs_no st) i).
      { destruct (evIn x); [|exists (rs_no st); repeat split; auto; intro i; now rewrite andb_false_r].
        destruct (zset_Some (rs_no st) (evEdge x) false) as (no' & S3); [lia|]. exists no'. split; [exact S3|].
        split; [rewrite (zset_length _ _ _ S3); exact L3|]. intro i. rewrite (zset_get _ _ _ i S3), andb_true_r. reflexivity. }
      destruct X as (no' & S3 & LN & PN). rewrite S3. cbn [obind].
      destruct (zget_Some (rs_low st) (evEdge x)) as (l0 & G2); [lia|]. rewrite G2. cbn [obind].
      destruct (zset_Some (rs_low st) (evEdge x) (Z.min l0 (evIdx x))) as (low' & S2); [lia|]. rewrite S2. cbn [obind].
      destruct (IH (RwgScan low' adj' no')) as (st' & E & A1 & A2 & A3 & A4); cbn [rs_low rs_adj rs_no].
      { intros; apply R; now right. }
      { rewrite (zset_length _ _ _ S2); auto. } { rewrite (zset_length _ _ _ S1); auto. } { exact LN. }
      exists st'. split; [exact E|]. do 3 (split; [assumption|]). intros i a l b A B D.
      cbn [rs_low rs_adj rs_no] in A4. cbv zeta in *. cbn [filter].
      destruct (Z.eqb_spec i (evEdge x)) as [->|N].
      * assert (a0 = a) by congruence. assert (l0 = l) by congruence. assert (b0 = b) by congruence. subst.
        destruct (A4 (evEdge x) (a + 1) (Z.min l (evIdx x)) (if evIn x then false else b)) as (B1 & B2 & B3).
        { now rewrite (zset_get _ _ _ _ S1), Z.eqb_refl. } { now rewrite (zset_get _ _ _ _ S2), Z.eqb_refl. }
        { rewrite PN, Z.eqb_refl. destruct (evIn x); auto. }
        rewrite CT in *. assert (OE : onEdge (evEdge x) x = true) by (unfold onEdge; apply Z.eqb_refl). rewrite OE.
        cbn [length map fold_left existsb]. split; [rewrite B1; f_equal; lia|]. split; [exact B2|].
        rewrite B3. f_equal. destruct (evIn x); cbn; [now rewrite andb_false_r|reflexivity].
      * assert (OE : onEdge i x = false) by (unfold onEdge; apply Z.eqb_neq; auto). rewrite OE.
        apply A4.
        { rewrite (zset_get _ _ _ _ S1). destruct (Z.eqb_spec i (evEdge x)); [contradiction|exact A]. }
        { rewrite (zset_get _ _ _ _ S2). destruct (Z.eqb_spec i (evEdge x)); [contradiction|exact B]. }
        { rewrite PN. destruct (Z.eqb_spec i (evEdge x)); [contradiction|exact D]. }
Qed.

(** numbering *)
Lemma rwgNumber_zeros put elementOn : forall adj no c, length adj = length no ->
  rwgNumber put elementOn adj no c =
  numberZeros (map (fun p => if (fst p =? 0) || (negb put && (fst p <? 2)) || (elementOn && snd p) then -1 else 0) (combine adj no)) c.
Proof.
  induction adj as [|a adj IH]; intros [|b no] c L; try discriminate; cbn [rwgNumber combine map numberZeros fst snd]; [reflexivity|].
  destruct ((a =? 0) || (negb put && (a <? 2)) || (elementOn && b)).
  - change (-1 =? 0) with false. cbv iota. now rewrite IH by now injection L.
  - change (0 =? 0) with true. cbv iota. now rewrite IH by now injection L.
Qed.

(** events on edge i and the sides of edge i *)
Definition sidesAt (e : selt) (i0 : nat) (fs : list Z) (i : Z) : list ldof := positions (s_index e) i0 fs i.
Lemma sides_positions (e : selt) i : forall fs i0,
  flat_map (fun k => match nth_error fs k with Some f => if f =? i then [(s_index e, (i0 + k)%nat)] else [] | None => [] end) (seq 0 (length fs))
  = positions (s_index e) i0 fs i.
Proof.
  induction fs as [|f fs IH]; intro i0; cbn [positions length seq flat_map nth_error]; [reflexivity|].
  rewrite Nat.add_0_r. f_equal. rewrite <- seq_shift, flat_map_concat_map, map_map, <- flat_map_concat_map. rewrite <- (IH (S i0)).
  apply flat_map_ext. intro k. cbn [nth_error]. replace (i0 + S k)%nat with (S i0 + k)%nat by lia. reflexivity.
Qed.
Lemma sidesOn_positions g i : sidesOn g i = flat_map (fun e => positions (s_index e) 0 (map fst (s_facets e)) i) (g_elts g).
Proof.
  unfold sidesOn. apply flat_map_ext. intro e. rewrite <- (sides_positions e i (map fst (s_facets e)) 0), map_length. reflexivity.
Qed.
Lemma events_sides s g i : 
  map (fun x => (evIdx x, evIn x)) (filter (onEdge i) (flat_map (eventsOf s) (g_elts g)))
  = map (fun x => (fst x, inSeg s 0 (fst x))) (sidesOn g i).
Proof.
  rewrite sidesOn_positions. induction (g_elts g) as [|e es IH]; cbn [flat_map]; [reflexivity|].
  rewrite filter_app, !map_app, IH. f_equal. unfold eventsOf.
  assert (A : forall fs i0, map (fun x => (evIdx x, evIn x)) (filter (onEdge i) (map (fun f : Z * list Z => (s_index e, inSeg s 0 (s_index e), fst f)) fs))
    = map (fun x => (fst x, inSeg s 0 (fst x))) (positions (s_index e) i0 (map fst fs) i)); [|apply A].
  induction fs as [|f fs IHf]; intro i0; cbn [map positions filter]; [reflexivity|].
  unfold onEdge at 1, evEdge. cbn [snd]. destruct (fst f =? i); cbn [app map]; rewrite (IHf (S i0)); reflexivity.
Qed.
Lemma fold_min_spec : forall l m, (forall x, In x l -> x <= m) ->
  (forall x, In x l -> fold_left Z.min l m <= x) /\ (l <> [] -> In (fold_left Z.min l m) l) /\ fold_left Z.min l m <= m.
Proof.
  assert (G : forall l m, fold_left Z.min l m <= m /\ (forall x, In x l -> fold_left Z.min l m <= x) /\ (fold_left Z.min l m = m \/ In (fold_left Z.min l m) l)).
  { induction l as [|a l IH]; intro m; cbn [fold_left]; [cbn; repeat split; [lia|tauto|auto]|].
    destruct (IH (Z.min m a)) as (A & B & C). split; [lia|]. split; [intros x [<-|I]; [lia|auto]|].
    cbn [In]. destruct C as [C|C]; [|auto]. rewrite C. destruct (Z.min_spec m a) as [(_ & ->)|(_ & ->)]; auto. }
  intros l m H. destruct (G l m) as (A & B & C). split; [exact B|]. split; [|exact A].
  intro NE. destruct C as [C|C]; [|exact C]. destruct l as [|a l]; [congruence|].
  pose proof (B a (or_introl eq_refl)). pose proof (H a (or_introl eq_refl)). left. lia.
Qed.

Section RWG.
Context {K : star_ring}.
Lemma rwg_core g (len : Z -> K) s put edgeOn elementOn : gridOk g -> fits g s -> triangles g ->
  (edgeOn || elementOn) = true -> g_n0 g <= INT_MAX ->
  exists (m : dofmap K) edges, rwgAssign g len s put edgeOn elementOn = Some m /\ consistent m /\ flatEnumerates m /\
    StronglySorted Z.lt edges /\ length edges = globalDofCount m /\
    (forall i, In i edges <-> 0 <= i < g_n1 g /\ rwgEdgeHasDof g s put edgeOn elementOn i) /\
    (forall d i, nth_error edges d = Some i -> nth_error (dm_g2l m) d = Some (activeSides g s elementOn i)) /\
    (forall e k i, In e (g_elts g) -> nth_error (map fst (s_facets e)) k = Some i ->
       exists low, dofWeight m (s_index e) k (if low =? s_index e then len i else opp (len i)) /\
       ((edgeOn = true -> holds s 1 i) -> In low (map fst (sidesOn g i)) /\ forall x, In x (sidesOn g i) -> low <= fst x)).
Proof.
  intros G F T Mode IM. pose proof G as (ND & RI & RE & _ & _).
  unfold rwgAssign. rewrite Mode. cbn [negb]. cbv zeta. set (n := Z.to_nat (g_n1 g)).
  rewrite scan_events.
  destruct (@scan_spec s edgeOn n (flat_map (eventsOf s) (g_elts g)) (RwgScan (repeat INT_MAX n) (repeat 0 n) (repeat true n)))
    as (st & ES & L1 & L2 & L3 & P); cbn [rs_low rs_adj rs_no]; try apply repeat_length.
  { intros x I. apply in_flat_map in I as (e & I & J). unfold eventsOf in J. apply in_map_iff in J as (f & <- & J).
    cbn. assert (0 <= fst f < g_n1 g) by (apply (RE e); [exact I|]; unfold hasFacet; now apply in_map). unfold n. lia. }
  rewrite ES. cbn [obind]. rewrite rwgNumber_zeros by congruence.
  match goal with |- context [numberZeros ?x 0] => set (marks := x) end.
  destruct (numberZeros marks 0) as [dofE count] eqn:EN.
  destruct (@numberZeros_spec marks 0 0 dofE count) as (LD & C2 & P2); [lia|exact EN|].
  set (edges := zerosFrom 0 marks) in *.
  cbn [rs_low rs_adj rs_no] in P.
  (* per-edge information in terms of the sides *)
  assert (PE : forall i, 0 <= i < g_n1 g ->
    let mine := if counted s edgeOn i then sidesOn g i else [] in
    zget (rs_adj st) i = Some (Z.of_nat (length mine)) /\
    zget (rs_low st) i = Some (fold_left Z.min (map fst mine) INT_MAX) /\
    zget (rs_no st) i = Some (negb (existsb (fun x => inSeg s 0 (fst x)) mine))).
  { intros i R. destruct (P i 0 INT_MAX true) as (A & B & C); try (apply zget_repeat; unfold n; lia).
    cbv zeta in *. set (mi := if counted s edgeOn i then filter (onEdge i) (flat_map (eventsOf s) (g_elts g)) else []) in *.
    set (mine := if counted s edgeOn i then sidesOn g i else []).
    assert (Q : map (fun x => (evIdx x, evIn x)) mi = map (fun x => (fst x, inSeg s 0 (fst x))) mine).
    { unfold mi, mine. destruct (counted s edgeOn i); [apply events_sides|reflexivity]. }
    assert (Q1 : length mi = length mine) by (apply (f_equal (@length _)) in Q; now rewrite !map_length in Q).
    assert (Q2 : map evIdx mi = map fst mine).
    { apply (f_equal (map fst)) in Q. rewrite !map_map in Q. exact Q. }
    assert (Q3 : existsb evIn mi = existsb (fun x => inSeg s 0 (fst x)) mine).
    { assert (EM : forall A (f : A -> bool) l, existsb f l = existsb (fun b => b) (map f l)) by (intros A' f' l'; induction l'; cbn; congruence).
      rewrite EM, (EM _ (fun x => inSeg s 0 (fst x))). apply (f_equal (map snd)) in Q. rewrite !map_map in Q. cbn [snd] in Q.
      f_equal. exact Q. }
    rewrite A, B, C, Q1, Q2, Q3. cbn [andb]. repeat split; f_equal; lia. }
  assert (LM : length marks = n) by (unfold marks; rewrite map_length, combine_length; lia).
  assert (MK : forall i, 0 <= i < g_n1 g -> exists x, zget marks i = Some x /\ (x = -1 \/ x = 0) /\
      (x = 0 <-> rwgEdgeHasDof g s put edgeOn elementOn i)).
  { intros i R. destruct (PE i R) as (A & B & C). cbv zeta in *. unfold marks. rewrite zget_map, zget_combine by congruence.
    rewrite A, C. cbn [fst snd]. eexists. split; [reflexivity|].
    destruct (@inSeg_spec s 1 i) as (_ & Q1); [lia|].
    assert (CT : counted s edgeOn i = true <-> (edgeOn = true -> holds s 1 i)).
    { unfold counted. destruct edgeOn; cbn; [rewrite Q1; tauto|]. split; [discriminate|reflexivity]. }
    set (mine := if counted s edgeOn i then sidesOn g i else []) in *.
    assert (EX : negb (existsb (fun x => inSeg s 0 (fst x)) mine) = false <-> exists x, In x mine /\ holds s 0 (fst x)).
    { rewrite negb_false_iff, existsb_exists. split; intros (x & I & H); exists x; split; auto; apply (@inSeg_spec s 0 (fst x)); auto; lia. }
    unfold rwgEdgeHasDof.
    destruct ((Z.of_nat (length mine) =? 0) || (negb put && (Z.of_nat (length mine) <? 2)) || (elementOn && negb (existsb (fun x => inSeg s 0 (fst x)) mine))) eqn:CD.
    - split; [now left|]. split; [discriminate|]. intros (H1 & H2 & H3). exfalso.
      apply CT in H1. unfold mine in *. rewrite H1 in *.
      assert (NE : (1 <= length (sidesOn g i))%nat) by (destruct put; lia).
      apply orb_true_iff in CD as [CD|CD]; [apply orb_true_iff in CD as [CD|CD]|].
      + apply Z.eqb_eq in CD. lia.
      + apply andb_true_iff in CD as (CD1 & CD). apply Z.ltb_lt in CD. destruct put; [discriminate|]. lia.
      + apply andb_true_iff in CD as (CD1 & CD). apply EX in H3; [congruence|exact CD1].
    - split; [now right|]. split; [intros _|reflexivity].
      apply orb_false_iff in CD as (CD & CD3). apply orb_false_iff in CD as (CD1 & CD2). apply Z.eqb_neq in CD1.
      assert (H1 : counted s edgeOn i = true). { destruct (counted s edgeOn i) eqn:Q; [reflexivity|]. unfold mine in CD1. try rewrite Q in CD1. cbn in CD1. lia. }
      unfold mine in *. rewrite H1 in *. split; [now apply CT|]. split.
      + destruct put; [lia|]. cbn in CD2. apply Z.ltb_ge in CD2. lia.
      + intro EO. rewrite EO in CD3. cbn in CD3. apply EX. exact CD3. }
  assert (INV : forall i, In i edges <-> 0 <= i < g_n1 g /\ rwgEdgeHasDof g s put edgeOn elementOn i).
  { intro i. unfold edges. rewrite in_zerosFrom, Z.sub_0_r. split.
    - intros (R0 & E). pose proof (zget_lt _ _ E) as R. assert (R' : 0 <= i < g_n1 g) by (unfold n in LM; lia).
      split; [exact R'|]. destruct (MK i R') as (x & E' & _ & Q). apply Q. congruence.
    - intros (R & H). destruct (MK i R) as (x & E' & _ & Q). split; [lia|]. rewrite E'. f_equal. now apply Q. }
  assert (DV : forall i, 0 <= i < g_n1 g -> exists d, zget dofE i = Some d /\
     ((d = -1 /\ ~ rwgEdgeHasDof g s put edgeOn elementOn i) \/
      (rwgEdgeHasDof g s put edgeOn elementOn i /\ 0 <= d < count /\ nth_error edges (Z.to_nat d) = Some i))).
  { intros i R. destruct (MK i R) as (x & E & [-> | ->] & Q).
    - unfold zget in *. destruct (Z.ltb_spec i 0); [lia|]. destruct (P2 _ _ E) as (A & _). exists (-1). split; [apply A; lia|].
      left. split; [reflexivity|]. intro H'. apply Q in H'. discriminate.
    - unfold zget in *. destruct (Z.ltb_spec i 0); [lia|]. destruct (P2 _ _ E) as (_ & B). destruct (B eq_refl) as (d & D1 & D2 & D3).
      exists d. split; [exact D1|]. right. split; [now apply Q|]. split; [exact D2|]. rewrite Z.sub_0_r in D3. rewrite D3. f_equal. lia. }
  set (dv := fun v => match zget dofE v with Some d => d | None => -1 end).
  set (lv := fun v => match zget (rs_low st) v with Some d => d | None => -1 end).
  set (cB := fun e => if elementOn then inSeg s 0 (s_index e) else true).
  set (D := fun e => map (fun f : Z * list Z => if cB e : bool then dv (fst f) else -1) (s_facets e)).
  set (W := fun e => map (fun f : Z * list Z => if lv (fst f) =? s_index e then len (fst f) else opp (len (fst f))) (s_facets e)).
  assert (FR : forall e f, In e (g_elts g) -> In f (s_facets e) -> 0 <= fst f < g_n1 g).
  { intros e f I J. apply (RE e); [exact I|]. unfold hasFacet. now apply in_map. }
  edestruct (@assignByEntity_spec K) with (D := D) (W := W) (n := Z.to_nat count) (es := g_elts g)
    as (m & E & A1 & A2 & A3 & A4 & A5 & A6 & A7).
  - now apply gridOk_indices.
  - intros e I. split.
    + instantiate (1 := fun e => if negb (length (s_facets e) =? 3)%nat then None else
              c <- (if elementOn then contains s 0 (s_index e) else Some true) ;;
              oseq (map (fun f => if c : bool then zget dofE (fst f) else Some (-1)%Z) (s_facets e))). cbv beta.
      destruct (T e I) as (T3 & _). rewrite T3. cbn [Nat.eqb negb].
      assert (X : (if elementOn then contains s 0 (s_index e) else Some true) = Some (cB e)).
      { unfold cB. destruct elementOn; [|reflexivity]. apply (@inSeg_spec s 0 (s_index e)). lia. }
      rewrite X. cbn [obind]. apply oseq_map. intros f J. destruct (cB e); [|reflexivity].
      unfold dv. destruct (DV (fst f)) as (d & Ed & _); [now apply (FR e)|]. now rewrite Ed.
    + instantiate (1 := fun e => oseq (map (fun f => l <- zget (rs_low st) (fst f) ;;
                                  Some (if (l =? s_index e)%Z then len (fst f) else opp (len (fst f))))
                        (s_facets e))). cbv beta. apply oseq_map. intros f J. unfold lv.
      destruct (PE (fst f)) as (_ & B & _); [now apply (FR e)|]. cbv zeta in B. rewrite B. reflexivity.
  - intros e d I J. apply in_map_iff in J as (f & <- & J). destruct (cB e); [|now left].
    unfold dv. destruct (DV (fst f)) as (d & Ed & H); [now apply (FR e)|]. rewrite Ed. destruct H as [(-> & _)|(_ & H & _)]; [now left|right; lia].
  - intros e I. unfold W, D. now rewrite !map_length.
  - exists m, edges. split; [exact E|]. split; [exact A6|]. split; [exact A7|]. split; [apply zerosFrom_sorted|].
    assert (LE : length edges = globalDofCount m) by (rewrite A4; lia). split; [exact LE|]. split; [exact INV|]. split.
    + intros d i Hd. assert (Ld : (d < Z.to_nat count)%nat) by (rewrite <- A4, <- LE; apply nth_error_Some; congruence).
      rewrite A5 by exact Ld. f_equal.
      assert (SSE : NoDup edges).
      { pose proof (zerosFrom_sorted marks 0) as SS. fold edges in SS. clear -SS. induction SS as [|a l S IH FF]; constructor; [|exact IH].
        intro I. rewrite Forall_forall in FF. specialize (FF _ I). lia. }
      unfold activeSides. rewrite sidesOn_positions.
      assert (MAIN : forall es, (forall e, In e es -> forall f, In f (s_facets e) -> 0 <= fst f < g_n1 g) ->
        flat_map (fun e => positions (s_index e) 0 (D e) (Z.of_nat d)) es
        = filter (fun x => negb elementOn || match contains s 0 (fst x) with Some b => b | None => false end)
            (flat_map (fun e => positions (s_index e) 0 (map fst (s_facets e)) i) es));
        [|apply MAIN; intros e I f J; exact (FR e f I J)].
      clear FR. induction es as [|e es IH]; intro FR; cbn [flat_map]; [reflexivity|].
      rewrite filter_app, <- IH by (intros; apply (FR e0); [right; assumption|assumption]). f_equal.
      specialize (FR e (or_introl eq_refl)).
      assert (CM : match contains s 0 (s_index e) with Some b => b | None => false end = inSeg s 0 (s_index e)) by reflexivity.
      assert (A : forall fs k, (forall f, In f fs -> 0 <= fst f < g_n1 g) ->
         positions (s_index e) k (map (fun f : Z * list Z => if cB e : bool then dv (fst f) else -1) fs) (Z.of_nat d)
         = filter (fun x => negb elementOn || match contains s 0 (fst x) with Some b => b | None => false end) (positions (s_index e) k (map fst fs) i));
        [|apply A; exact FR].
      clear FR IH. induction fs as [|f fs IHf]; intros k FR; cbn [map positions filter app]; [reflexivity|].
      rewrite filter_app, <- IHf by (intros; apply FR; now right). f_equal.
      assert (Q : (if cB e then dv (fst f) else -1) =? Z.of_nat d = (fst f =? i) && (negb elementOn || inSeg s 0 (s_index e))).
      { unfold cB. destruct (DV (fst f)) as (d' & Ed & H); [apply FR; now left|]. unfold dv. rewrite Ed.
        assert (Y : (d' =? Z.of_nat d) = (fst f =? i)).
        { destruct H as [(-> & NH)|(_ & R & H)].
          - destruct (Z.eqb_spec (-1) (Z.of_nat d)); [lia|]. symmetry. apply Z.eqb_neq. intros Q. apply NH.
            rewrite Q. assert (Ii : In i edges) by (eapply nth_error_In; eauto). apply INV in Ii. tauto.
          - destruct (Z.eqb_spec d' (Z.of_nat d)) as [->|N].
            + rewrite Nat2Z.id in H. symmetry. apply Z.eqb_eq. congruence.
            + symmetry. apply Z.eqb_neq. intros Q. subst i. apply N.
              assert (Z.to_nat d' = d); [|lia]. apply (proj1 (NoDup_nth_error edges) SSE); [apply nth_error_Some; congruence|congruence]. }
        destruct elementOn; cbn; [|now rewrite Y, andb_true_r]. destruct (inSeg s 0 (s_index e)); [now rewrite Y, andb_true_r|].
        rewrite andb_false_r. apply Z.eqb_neq. lia. }
      rewrite Q. destruct (fst f =? i); [|reflexivity]. cbn [andb filter fst]. rewrite CM. destruct (negb elementOn || inSeg s 0 (s_index e)); reflexivity.
    + intros e k i I Nk. destruct (A1 e I) as (_ & B). exists (lv i).
      rewrite nth_error_map in Nk. destruct (nth_error (s_facets e) k) as [f|] eqn:Ef; [|discriminate]. injection Nk as <-.
      assert (J : In f (s_facets e)) by (eapply nth_error_In; eauto).
      split. { exists (W e). split; [exact B|]. unfold W. now rewrite nth_error_map, Ef. }
      intro H1. destruct (PE (fst f)) as (_ & B' & _); [now apply (FR e)|]. cbv zeta in B'.
      destruct (@inSeg_spec s 1 (fst f)) as (_ & Q1); [lia|].
      assert (CT : counted s edgeOn (fst f) = true) by (unfold counted; destruct edgeOn; cbn; [apply Q1; now apply H1|reflexivity]).
      rewrite CT in B'. unfold lv. rewrite B'.
      assert (LT : forall x, In x (map fst (sidesOn g (fst f))) -> x <= INT_MAX).
      { intros x X. apply in_map_iff in X as ([a b] & <- & X). rewrite sidesOn_positions in X. apply in_flat_map in X as (e' & I' & X).
        apply in_positions in X as (-> & _). specialize (RI e' I'). cbn. lia. }
      destruct (@fold_min_spec _ _ LT) as (X1 & X2 & _). split; [|intros x X; apply X1; now apply in_map].
      apply X2. assert (X : In (s_index e, k) (sidesOn g (fst f))).
      { rewrite sidesOn_positions. apply in_flat_map. exists e. split; [exact I|]. apply in_positions. split; [reflexivity|].
        exists k. split; [reflexivity|]. now rewrite nth_error_map, Ef. }
      intro Q. apply (in_map fst) in X. rewrite Q in X. destruct X.
Qed.
End RWG.
