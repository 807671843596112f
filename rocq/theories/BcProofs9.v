From Coq Require Import Reals Lra Sorted.
From Verif Require Import Base ComplexR SegModel SegSpec SegProofs AsmModel SpaceModel SpaceSpec SpaceProofs SpaceP1Proofs SpaceRwgProofs PolySpec PolyProofs6 VecModel VecSpec VecProofs3 VecProofs4
  BaryModel BarySpec BaryProofs BaryProofs2 BaryProofs3 BaryProofs4 BcModel BcSpec BcProofs BcProofs2 BcProofs3 BcProofs4 BcProofs5 BcProofs6 BcProofs7 BcProofs8.
Set Implicit Arguments.
Unset Strict Implicit.
Local Open Scope Z_scope.

Lemma ofold_app A S (f : S -> A -> option S) : forall l l' s, ofold f (l ++ l') s = (s' <- ofold f l s ;; ofold f l' s').
Proof. induction l as [|a l IH]; intros l' s; cbn [ofold app]; [reflexivity|]. destruct (f s a); cbn [obind]; [apply IH|reflexivity]. Qed.
Lemma count_incr : forall vs cnt, (forall z, In z vs -> 0 <= z < Z.of_nat (length cnt)) ->
  exists cnt', ofold (fun c i => n <- zget c i ;; zset c i (n + 1)) vs cnt = Some cnt' /\ length cnt' = length cnt /\
  forall z c, zget cnt z = Some c -> zget cnt' z = Some (c + Z.of_nat (count_occ Z.eq_dec vs z)).
Proof.
  induction vs as [|v vs IH]; intros cnt H; cbn [ofold].
  - exists cnt. split; [reflexivity|]. split; [reflexivity|]. intros z c E. rewrite E. f_equal. cbn. lia.
  - destruct (@zget_Some _ cnt v (H v (or_introl eq_refl))) as (c & Ec). rewrite Ec. cbn [obind].
    destruct (zset_Some cnt v (c + 1)) as (c1 & E1); [apply H; now left|]. rewrite E1. cbn [obind].
    destruct (IH c1) as (cnt' & E & L & P). { intros z I. rewrite (zset_length _ _ _ E1). apply H. now right. }
    exists cnt'. split; [exact E|]. rewrite (zset_length _ _ _ E1) in L. split; [exact L|]. intros z k K. cbn [count_occ].
    pose proof (zset_get _ _ _ z E1) as Q. destruct (Z.eqb_spec z v) as [->|D].
    + rewrite (P _ _ Q). assert (k = c) by congruence. subst k. destruct (Z.eq_dec v v); [|contradiction]. f_equal. lia.
    + rewrite K in Q. rewrite (P _ _ Q). destruct (Z.eq_dec v z); [congruence|reflexivity].
Qed.
Lemma count_filter A (f : A -> Z) v : forall l, count_occ Z.eq_dec (map f l) v = length (filter (fun x => f x =? v) l).
Proof. induction l as [|x l IH]; cbn; [reflexivity|]. destruct (Z.eq_dec (f x) v), (Z.eqb_spec (f x) v); try contradiction; cbn; now rewrite IH. Qed.
Lemma same_length A (l l' : list A) : NoDup l -> NoDup l' -> (forall x, In x l <-> In x l') -> length l = length l'.
Proof. intros N N' H. apply Nat.le_antisymm; apply NoDup_incl_length; auto; intros x I; now apply H. Qed.

Section Coarse.
Variables (g : sgrid).
Hypotheses (G : gridOk g) (TR : triangulation g) (OS : orientedSurface g) (NE : noIsolatedEdge g) (IM : g_n0 g <= INT_MAX).
Notation corner := (corner g).
Definition corners3 (e : selt) : list (selt * nat) := [(e, 0%nat); (e, 1%nat); (e, 2%nat)].
Definition allCorners : list (selt * nat) := flat_map corners3 (g_elts g).
Lemma in_corners3 e x : In x (corners3 e) <-> fst x = e /\ (snd x < 3)%nat.
Proof.
  destruct x as (e', k). unfold corners3. cbn [In fst snd]. split.
  - intros [Q|[Q|[Q|[]]]]; injection Q as <- <-; split; auto; lia.
  - intros (-> & K). dig k; auto.
Qed.
Lemma in_allCorners x : In x allCorners <-> corner x.
Proof.
  unfold allCorners. rewrite in_flat_map. split.
  - intros (e & I & J). apply in_corners3 in J as (<- & K). split; assumption.
  - intros (I & K). exists (fst x). split; [exact I|]. now apply in_corners3.
Qed.
Lemma allCorners_NoDup : NoDup allCorners.
Proof.
  apply NoDup_flat_map; [now apply NoDup_indices| |].
  - intros e _. repeat constructor; cbn; intuition congruence.
  - intros e e' x _ _ A B. apply in_corners3 in A as (<- & _). apply in_corners3 in B as (<- & _). reflexivity.
Qed.
Lemma allCorners_length : length allCorners = (3 * length (g_elts g))%nat.
Proof. unfold allCorners. induction (g_elts g); [reflexivity|]. cbn [flat_map corners3 app length]. lia. Qed.
Lemma verts_cv e : In e (g_elts g) -> s_verts e = map cv (corners3 e).
Proof. intro I. destruct (proj1 TR e I) as (a & b & c & _ & _ & _ & V & _). unfold cv, vtx, corners3. cbn [map fst snd]. rewrite V. reflexivity. Qed.
Lemma fan_length v o l : fanAt g v o l -> (length l <= 3 * length (g_elts g))%nat /\ length l = length (filter (fun x => cv x =? v) allCorners).
Proof.
  intro F. pose proof F as (_ & ND & _). split.
  - rewrite <- allCorners_length. apply NoDup_incl_length; [exact ND|]. intros x I. apply in_allCorners. now apply (fan_in TR x F) in I.
  - apply same_length; [exact ND|apply NoDup_filter, allCorners_NoDup|]. intro x. rewrite filter_In, in_allCorners, Z.eqb_eq. apply (fan_in TR x F).
Qed.
Lemma vertexCounts_spec : exists ns, vertexCounts g = Some ns /\ forall v o l, 0 <= v < g_n2 g -> fanAt g v o l -> zget ns v = Some (Z.of_nat (length l)).
Proof.
  assert (EQ : forall es cnt, incl es (g_elts g) -> ofold (fun cnt e => vs <- vertices3 e ;; ofold (fun cnt i => n <- zget cnt i ;; zset cnt i (n + 1)) vs cnt) es cnt =
     ofold (fun c i => n <- zget c i ;; zset c i (n + 1)) (map cv (flat_map corners3 es)) cnt).
  { induction es as [|e es IH]; intros cnt I; [reflexivity|]. cbn [flat_map]. rewrite map_app, ofold_app. cbn [ofold].
    assert (V : vertices3 e = Some (map cv (corners3 e))).
    { rewrite <- verts_cv by (apply I; now left). destruct (proj1 TR e) as (a & b & c & _ & _ & _ & V & _); [apply I; now left|]. unfold vertices3. rewrite V. reflexivity. }
    rewrite V. cbn [obind]. destruct (ofold _ (map cv (corners3 e)) cnt); cbn [obind]; [|reflexivity]. apply IH. intros x J. apply I. now right. }
  unfold vertexCounts. rewrite EQ by apply incl_refl. change (flat_map corners3 (g_elts g)) with allCorners.
  destruct (@count_incr (map cv allCorners) (repeat 0 (Z.to_nat (g_n2 g)))) as (ns & E & L & P).
  { intros z I. apply in_map_iff in I as (x & <- & I). apply in_allCorners in I as (I & K). pose proof (vtx_range G TR I K). rewrite repeat_length. unfold cv. lia. }
  exists ns. split; [exact E|]. intros v o l R F. rewrite (P v 0) by (apply zget_repeat; lia). f_equal. rewrite count_filter. destruct (fan_length F) as (_ & ->). lia.
Qed.

(** the lowest side of an edge *)
Definition lowSide (i : Z) (e : selt) (s : nat) : Prop := In e (g_elts g) /\ (s < 3)%nat /\ edg e s = i /\ forall x, In x (sidesOn g i) -> s_index e <= fst x.
Lemma low_spec : exists cnt low, faceCounts g = Some cnt /\ lowestElements g = Some low /\ length cnt = Z.to_nat (g_n1 g) /\
  forall i, 0 <= i < g_n1 g -> zget cnt i = Some (Z.of_nat (length (sidesOn g i))) /\
    exists e s, lowSide i e s /\ zget low i = Some (s_index e).
Proof.
  destruct (counts_spec G (triangulation_triangles TR)) as (cnt & low & E1 & E2 & L & _ & H). exists cnt, low. split; [exact E1|]. split; [exact E2|]. split; [exact L|]. intros i R. destruct (H i R) as (A & B).
  split; [exact A|].
  assert (LT : forall x, In x (map fst (sidesOn g i)) -> x <= INT_MAX).
  { intros x X. apply in_map_iff in X as ([a b] & <- & X). apply sidesOn_inv in X as (e' & I' & <- & _). destruct G as (_ & RI & _). specialize (RI e' I'). cbn. lia. }
  destruct (@fold_min_spec _ _ LT) as (X1 & X2 & _). destruct (NE R) as (e & Ie & He). unfold hasFacet in He. apply In_nth_error in He as (s & S).
  assert (J : In (fold_left Z.min (map fst (sidesOn g i)) INT_MAX) (map fst (sidesOn g i))).
  { apply X2. pose proof (@in_sidesOn g i e s Ie S) as X. intro Q'. apply (in_map fst) in X. rewrite Q' in X. destruct X. }
  apply in_map_iff in J as ((z, s') & Ez & J). cbn in Ez. apply (in_sides TR) in J as (e' & Ie' & Q & S' & Ei). exists e', s'. split.
  - split; [exact Ie'|]. split; [exact S'|]. split; [exact Ei|]. intros x X. rewrite Q, Ez. apply X1. now apply in_map.
  - rewrite B. congruence.
Qed.
Lemma edges3_edg e : In e (g_elts g) -> edges3 e = Some [edg e 0; edg e 1; edg e 2].
Proof.
  intro I. destruct (proj1 TR e I) as (a & b & c & i & j & k & _ & _ & F). unfold edges3, edg. rewrite F. reflexivity.
Qed.
Lemma sideTable_spec A low lowest (val : selt -> nat -> option A) (V : selt -> nat -> A) :
  (forall e k, In e (g_elts g) -> (k < 3)%nat -> exists l, zget low (edg e k) = Some l) ->
  (forall e k, In e (g_elts g) -> (k < 3)%nat -> val e k = Some (V e k)) ->
  exists tb, sideTable g low lowest val = Some tb /\
    forall e k l, In e (g_elts g) -> (k < 3)%nat -> zget low (edg e k) = Some l -> Bool.eqb (l =? s_index e) lowest = true ->
      (forall e' k', In e' (g_elts g) -> (k' < 3)%nat -> edg e' k' = edg e k -> Bool.eqb (l =? s_index e') lowest = true -> e' = e /\ k' = k) ->
      zread tb (edg e k) = Some (V e k).
Proof.
  intros HL HV. unfold sideTable.
  set (F := fun (e : selt) (k : nat) => match zget low (edg e k) with Some l => if Bool.eqb (l =? s_index e) lowest then [(edg e k, Some (V e k))] else [] | None => [] end).
  rewrite (@SpaceProofs.oseq_map _ _ _ (fun e => flat_map (F e) (seq 0 3))).
  2:{ intros e I. unfold sideWrites. rewrite (edges3_edg I). cbn [obind]. apply (oseq_concat3 e). intros k K.
      assert (X : nth_error [edg e 0; edg e 1; edg e 2] k = Some (edg e k)) by (dig k; reflexivity). rewrite X. cbn [obind]. unfold F. destruct (HL e k I K) as (l & L). rewrite L. cbn [obind].
      destruct (Bool.eqb (l =? s_index e) lowest); [|reflexivity]. rewrite (HV e k I K). reflexivity. }
  cbn [obind]. set (ws := concat (map (fun e => flat_map (F e) (seq 0 3)) (g_elts g))).
  assert (IW : forall p, In p ws <-> exists e k l, In e (g_elts g) /\ (k < 3)%nat /\ zget low (edg e k) = Some l /\ Bool.eqb (l =? s_index e) lowest = true /\ p = (edg e k, Some (V e k))).
  { intro p. unfold ws. rewrite in_concat_map. split.
    - intros (e & I & P). apply in_flat3 in P as (k & K & P). unfold F in P. destruct (zget low (edg e k)) as [l|] eqn:L; [|destruct P]. destruct (Bool.eqb (l =? s_index e) lowest) eqn:Q; [|destruct P]. destruct P as [<-|[]].
      exists e, k, l. auto.
    - intros (e & k & l & I & K & L & Q & ->). exists e. split; [exact I|]. apply in_flat3. exists k. split; [exact K|]. unfold F. rewrite L, Q. now left. }
  assert (RG : forall x v, In (x, v) ws -> 0 <= x < Z.of_nat (length (repeat (@None A) (Z.to_nat (g_n1 g))))).
  { intros x v I. apply IW in I as (e & k & l & I & K & _ & _ & Q). injection Q as -> _. rewrite repeat_length. pose proof (edg_range G TR I K). lia. }
  destruct (writes_spec RG) as (tb & E & _). exists tb. split; [exact E|]. intros e k l I K L Q U. unfold zread. rewrite (@writes_value _ ws _ _ (edg e k) (Some (V e k)) RG E).
  - reflexivity.
  - apply IW. exists e, k, l. auto.
  - intros v' I'. apply IW in I' as (e' & k' & l' & I' & K' & L' & Q' & P). injection P as P ->. rewrite <- P, L in L'. injection L' as <-. destruct (U e' k' I' K' (eq_sym P) Q') as (-> & ->). reflexivity.
Qed.

(** an edge between two triangles: the orientations agree *)
Lemma two_triangles A j B j' : In A (g_elts g) -> In B (g_elts g) -> (j < 3)%nat -> (j' < 3)%nat -> A <> B -> edg A j = edg B j' ->
  vtx B (secondCorner j') = vtx A (firstCorner j) /\ vtx B (firstCorner j') = vtx A (secondCorner j).
Proof.
  intros IA IB J J' D E. destruct (corners_lt J) as (K1 & K2 & K3). destruct (corners_lt J') as (K1' & K2' & K3').
  assert (CA : corner (A, firstCorner j)) by (split; assumption).
  destruct (fan_of G TR OS CA) as (o & l & F & I). destruct (cyc_succ I) as (y & CY). pose proof (cyc_in CY) as (_ & Iy). apply (fan_in TR y F) in Iy as (Cy & Vy).
  assert (EA : inE (A, firstCorner j) = edg A j) by (unfold inE; cbn [fst snd]; now rewrite (proj1 (into_first J))).
  assert (SA : In (s_index A, j) (sidesOn g (edg A j))) by (apply (in_sides TR); eauto).
  assert (SB : In (s_index B, j') (sidesOn g (edg A j))) by (apply (in_sides TR); eauto).
  assert (DI : s_index A <> s_index B) by (intro Q; apply D; now apply (@indices_inj _ _ _ (gridOk_indices G))).
  destruct (fan_cyc TR F CY) as [T|(_ & Bd & _)].
  2:{ exfalso. rewrite EA in Bd. pose proof (one_side Bd SA SB). congruence. }
  rewrite EA in T. pose proof (outSide TR Cy) as SY. rewrite <- T in SY.
  destruct (three_sides ((proj1 OS) (edg A j)) SA SB SY) as [X|X]; [congruence| |]; injection X as X1 X2.
  - exfalso. assert (Q : (A, firstCorner j) = y) by (apply (corner_eq G TR CA Cy); [auto|rewrite Vy; reflexivity]). subst y. cbn [snd] in X2. destruct (sides_lt K1) as (_ & _ & Z & _). rewrite (proj1 (into_first J)) in Z. congruence.
  - assert (Q : fst y = B) by (destruct Cy; now apply (@indices_inj _ _ _ (gridOk_indices G))). destruct y as (b, k). cbn [fst snd] in *. subst b.
    assert (k = secondCorner j') by (destruct Cy as (_ & Ky); cbn [snd] in Ky; destruct (sides_lt Ky) as (_ & _ & _ & _ & Z); congruence). subst k.
    assert (V1 : vtx B (secondCorner j') = vtx A (firstCorner j)) by (unfold cv in Vy; exact Vy). split; [exact V1|].
    pose proof (proj1 (same_edge TR IA IB J J') E) as H. destruct (proj2 (H (vtx B (firstCorner j'))) (or_introl eq_refl)) as [Z|Z]; [|exact Z].
    exfalso. apply K3'. eapply (vtx_inj TR IB); auto. congruence.
Qed.
End Coarse.
