From Coq Require Import Sorted.
From Verif Require Import Base SegModel SegSpec SegProofs AsmModel AsmSpec SpaceModel SpaceSpec SpaceProofs SpaceP1Proofs SpaceDP1Proofs SpaceRwgProofs SpaceLinkProofs.
Set Implicit Arguments.
Local Open Scope Z_scope.

(** C29.  The list vs holds the vertices that carry a dof, in increasing order: global dof d sits
    at vertex number d of vs.  [usedVertex]: the vertex belongs to the segment and, in the strict
    mode, touches an element of the segment. *)
Theorem C29_p1_dofs (K : star_ring) g s strict : gridOk g -> fits g s ->
  exists (m : dofmap K) vs, p1Assign g s strict = Some m /\
    consistent m /\ flatEnumerates m /\
    StronglySorted Z.lt vs /\ length vs = globalDofCount m /\ (forall v, In v vs <-> usedVertex g s strict v) /\
    (* dof of a corner: its vertex' dof, or -1 *)
    (forall e i v, In e (g_elts g) -> nth_error (s_verts e) i = Some v ->
       exists d, globalDof m (s_index e) i d /\
         (0 <= d <-> holds s 2 v /\ (strict = true -> holds s 0 (s_index e))) /\
         (0 <= d -> nth_error vs (Z.to_nat d) = Some v) /\
         dofWeight m (s_index e) i one) /\
    (* no further local dofs *)
    (forall e i d, In e (g_elts g) -> globalDof m (s_index e) i d -> (i < length (s_verts e))%nat) /\
    (* dofs coincide iff vertices do *)
    (forall e i v d e' i' v' d', In e (g_elts g) -> In e' (g_elts g) ->
       nth_error (s_verts e) i = Some v -> nth_error (s_verts e') i' = Some v' ->
       globalDof m (s_index e) i d -> globalDof m (s_index e') i' d' -> 0 <= d -> 0 <= d' -> (d = d' <-> v = v')) /\
    (* no dof without local dofs *)
    (noIsolatedVertex g -> forall d, (d < globalDofCount m)%nat -> exists x, attachedTo m d x).
Proof.
  intros G F. destruct (@p1_core K g s strict G F) as (m & vs & E & C & FE & SS & LV & IV & P).
  assert (ND : NoDup vs).
  { clear -SS. induction SS as [|a l S IH FF]; constructor; [|exact IH]. intro I. rewrite Forall_forall in FF. specialize (FF _ I). lia. }
  assert (CR : forall e i v d, In e (g_elts g) -> nth_error (s_verts e) i = Some v -> globalDof m (s_index e) i d ->
     (0 <= d <-> holds s 2 v /\ (strict = true -> holds s 0 (s_index e))) /\ (0 <= d -> nth_error vs (Z.to_nat d) = Some v)).
  { intros e i v d I V (ds & A & B). destruct (P e I) as (ds' & A1 & A2 & A3 & A4). assert (ds' = ds) by congruence. subst ds'.
    destruct (A4 i v V) as (d' & D & Q). assert (d' = d) by congruence. subst d'.
    destruct Q as [(-> & N)|(H1 & H2 & H3 & H4)]; [|tauto]. split; [|lia]. split; [lia|tauto]. }
  exists m, vs. split; [exact E|]. split; [exact C|]. split; [exact FE|]. split; [exact SS|]. split; [exact LV|]. split; [exact IV|].
  split; [|split; [|split]].
  - intros e i v I V. destruct (P e I) as (ds & A1 & A2 & A3 & A4). destruct (A4 i v V) as (d & D & _).
    assert (GD : globalDof m (s_index e) i d) by (exists ds; auto). exists d. split; [exact GD|].
    destruct (CR e i v d I V GD) as (B1 & B2). split; [exact B1|]. split; [exact B2|].
    eexists. split; [exact A3|]. apply nth_error_repeat_. apply nth_error_Some. congruence.
  - intros e i d I (ds & A & B). destruct (P e I) as (ds' & A1 & A2 & _). assert (ds' = ds) by congruence. subst ds'.
    rewrite <- A2. apply nth_error_Some. congruence.
  - intros e i v d e' i' v' d' I I' V V' GD GD' D D'.
    pose proof (proj2 (CR _ _ _ _ I V GD) D) as N. pose proof (proj2 (CR _ _ _ _ I' V' GD') D') as N'. split.
    + intros ->. congruence.
    + intros ->. assert (Z.to_nat d = Z.to_nat d'); [|lia].
      apply (proj1 (NoDup_nth_error vs) ND); [apply nth_error_Some; congruence|congruence].
  - intros NI d L. destruct (nth_error vs d) as [v|] eqn:Ev; [|apply nth_error_None in Ev; lia].
    assert (U : usedVertex g s strict v) by (apply IV; eapply nth_error_In; eauto).
    assert (X : exists e, In e (g_elts g) /\ hasVertex e v /\ (strict = true -> holds s 0 (s_index e))).
    { destruct U as (H2 & H3). destruct strict.
      - destruct (H3 eq_refl) as (e & A & B & D). exists e. auto.
      - destruct (NI v) as (e & A & B); [|exists e; split; [auto|split; [auto|discriminate]]].
        apply holds_iff in H2; [|lia]. destruct (F 2%nat) as (CC & _); [lia|]. rewrite CC in H2. apply H2. }
    destruct X as (e & I & V & S). apply In_nth_error in V as (i & V). exists (s_index e, i).
    destruct (P e I) as (ds & A1 & A2 & A3 & A4). destruct (A4 i v V) as (d' & D & Q).
    assert (GD : globalDof m (s_index e) i d') by (exists ds; auto).
    destruct Q as [(_ & N)|(_ & _ & P0 & N)]; [exfalso; apply N; split; [apply U|exact S]|].
    assert (Z.to_nat d' = d) by (apply (proj1 (NoDup_nth_error vs) ND); [apply nth_error_Some; congruence|congruence]).
    destruct C as (_ & _ & C3). destruct (C3 d L) as (l & B1 & _ & B2). exists l. split; [exact B1|]. apply B2. subst d. rewrite Z2Nat.id by lia. exact GD.
Qed.
Print Assumptions C29_p1_dofs.

(** C30, discontinuous P1 *)
Theorem C30_discontinuous_p1_dofs (K : star_ring) g s strict : gridOk g ->
  exists m : dofmap K, dp1Assign g s strict = Some m /\ consistent m /\ flatEnumerates m /\
    (* every dof belongs to one local dof only *)
    (forall d l, nth_error (dm_g2l m) d = Some l -> length l = 1%nat) /\
    (* flat local dof d is the local dof of global dof d *)
    (inIndexOrder g -> dm_flat m = concat (dm_g2l m)) /\
    flatLocalDofCount m = globalDofCount m /\
    (* the corners that carry a dof *)
    (forall e i v, In e (g_elts g) -> nth_error (s_verts e) i = Some v ->
       exists d, globalDof m (s_index e) i d /\ dofWeight m (s_index e) i one /\
        (0 <= d <-> (if strict then holds s 0 (s_index e) else holds s 2 v))) /\
    (forall e i d, In e (g_elts g) -> globalDof m (s_index e) i d -> (i < length (s_verts e))%nat).
Proof.
  intro G. destruct (@dp1_final K g s strict G) as (m & E & C & FE & S1 & O & CNT & P). exists m.
  do 6 (split; [assumption|]). split.
  - intros e i v I V. destruct (P e I) as (ds & A1 & A2 & A3 & A4). destruct (A4 i v V) as (d & D & Q). exists d.
    split; [exists ds; auto|]. split; [|exact Q]. eexists. split; [exact A3|]. apply nth_error_repeat_. apply nth_error_Some. congruence.
  - intros e i d I (ds & A & B). destruct (P e I) as (ds' & A1 & A2 & _). assert (ds' = ds) by congruence. subst ds'.
    rewrite <- A2. apply nth_error_Some. congruence.
Qed.
Print Assumptions C30_discontinuous_p1_dofs.
(** C30, piecewise constants: dofs on every segment; flat local dofs if the segment is the whole grid *)
Theorem C30_piecewise_constant_dofs (K : star_ring) g s : gridOk g ->
  exists m : dofmap K, p0Assign g s = Some m /\ consistent m /\
    (forall d l, nth_error (dm_g2l m) d = Some l -> length l = 1%nat) /\
    (forall e, In e (g_elts g) -> exists d, zget (dm_l2g m) (s_index e) = Some [d] /\ zget (dm_w m) (s_index e) = Some [one] /\
       (0 <= d <-> holds s 0 (s_index e))) /\
    (inIndexOrder g -> (forall e, In e (g_elts g) -> holds s 0 (s_index e)) ->
       dm_flat m = concat (dm_g2l m) /\ flatEnumerates m /\ flatLocalDofCount m = globalDofCount m).
Proof.
  intro G. destruct (@p0_core K g s G) as (m & E & C & S1 & P & FL & O). exists m. do 4 (split; [assumption|]).
  intros IO W. specialize (O IO W). split; [exact O|]. split.
  - split.
    + rewrite FL. generalize (length (g_elts g)) as n. intro n.
      assert (A : forall n a, StronglySorted ldofLt (map (fun i => (Z.of_nat i, 0%nat)) (seq a n))); [|apply A].
      clear. induction n; intro a; cbn; constructor; [apply IHn|]. apply Forall_forall. intros x I. apply in_map_iff in I as (k & <- & I).
      apply in_seq in I. left. cbn. lia.
    + intros e i. rewrite O, in_concat. destruct C as (C1 & _ & C3). split.
      * intros (l & I & J). apply In_nth_error in I as (d & D). destruct (C3 d) as (l' & B1 & _ & B2).
        { unfold globalDofCount. apply nth_error_Some. congruence. }
        assert (l' = l) by congruence. subst l'. exists (Z.of_nat d). split; [now apply B2|lia].
      * intros (d & GD & D). destruct (C1 _ _ _ GD) as [?|R]; [lia|]. destruct (C3 (Z.to_nat d)) as (l & B1 & _ & B2); [lia|].
        rewrite Z2Nat.id in B2 by lia. exists l. split; [eapply nth_error_In; eauto|now apply B2].
  - unfold flatLocalDofCount, globalDofCount. rewrite O. clear -S1.
    induction (dm_g2l m) as [|l r IH]; cbn; [reflexivity|]. rewrite app_length, IH.
    + rewrite (S1 0%nat l eq_refl). reflexivity.
    + intros d l' H. exact (S1 (S d) l' H).
Qed.
Print Assumptions C30_piecewise_constant_dofs.

(** C31.  len i is the length of edge i.  Default dof mode (EDGE_ON_SEGMENT), no dofs on
    boundaries, edges shared by at most two elements. *)
Theorem C31_rwg_dofs (K : star_ring) g (len : Z -> K) s : gridOk g -> fits g s -> triangles g -> g_n0 g <= INT_MAX ->
  (forall i, (length (sidesOn g i) <= 2)%nat) ->
  exists (m : dofmap K) edges, rwgAssign g len s false true false = Some m /\ consistent m /\ flatEnumerates m /\
    NoDup edges /\ length edges = globalDofCount m /\
    (forall i, In i edges <-> holds s 1 i /\ length (sidesOn g i) = 2%nat) /\
    (* the dof of edge i lives on its two sides, with weights of opposite sign *)
    (forall d i, nth_error edges d = Some i -> exists e1 k1 e2 k2,
       sidesOn g i = [(e1, k1); (e2, k2)] /\ e1 <> e2 /\ nth_error (dm_g2l m) d = Some [(e1, k1); (e2, k2)] /\
       dofWeight m e1 k1 (if e1 <? e2 then len i else opp (len i)) /\
       dofWeight m e2 k2 (if e1 <? e2 then opp (len i) else len i)).
Proof.
  intros G F T IM MF.
  destruct (@rwg_core K g len s false true false G F T eq_refl IM) as (m & edges & E & C & FE & SS & LE & IE & GL & WT).
  exists m, edges. do 3 (split; [assumption|]). split.
  { clear -SS. induction SS as [|a l S IH FF]; constructor; [|exact IH]. intro I. rewrite Forall_forall in FF. specialize (FF _ I). lia. }
  split; [exact LE|].
  assert (IE' : forall i, In i edges <-> holds s 1 i /\ length (sidesOn g i) = 2%nat).
  { intro i. rewrite IE. unfold rwgEdgeHasDof. specialize (MF i). split.
    - intros (_ & H1 & H2 & _). split; [auto|lia].
    - intros (H1 & H2). split; [|split; [auto|split; [lia|discriminate]]].
      apply holds_iff in H1; [|lia]. destruct (F 1%nat) as (CC & _); [lia|]. rewrite CC in H1. apply H1. }
  split; [exact IE'|]. intros d i N. pose proof (nth_error_In _ _ N) as I. apply IE' in I as (H1 & L2).
  pose proof (GL d i N) as GL'.
  assert (AS : activeSides g s false i = sidesOn g i).
  { unfold activeSides. cbn [negb orb]. clear. induction (sidesOn g i); cbn; congruence. }
  rewrite AS in GL'.
  destruct (sidesOn g i) as [|[e1 k1] [|[e2 k2] [|]]] eqn:Q; try discriminate. exists e1, k1, e2, k2. split; [reflexivity|].
  assert (ELT : forall e k, In (e, k) (sidesOn g i) -> exists x, In x (g_elts g) /\ s_index x = e /\ nth_error (map fst (s_facets x)) k = Some i).
  { intros e k I. rewrite sidesOn_positions in I. apply in_flat_map in I as (x & I & J). apply in_positions in J as (-> & k' & -> & J). eauto. }
  destruct (ELT e1 k1) as (x1 & I1 & X1 & F1); [rewrite Q; now left|].
  destruct (ELT e2 k2) as (x2 & I2 & X2 & F2); [rewrite Q; now (right; left)|].
  assert (NE : e1 <> e2).
  { intro EQ. subst e1 e2. assert (x1 = x2) by (apply (index_unique g); auto). subst x2.
    destruct (T x1 I1) as (_ & ND). assert (k1 = k2) by (apply (proj1 (NoDup_nth_error _) ND); [apply nth_error_Some; congruence|congruence]). subst k2.
    assert (NDS : NoDup (sidesOn g i)) by (rewrite sidesOn_positions; apply NoDup_flat_positions; apply G).
    rewrite Q in NDS. inversion NDS; subst. cbn in *. tauto. }
  split; [exact NE|]. split; [exact GL'|].
  assert (WX : forall x k, In x (g_elts g) -> nth_error (map fst (s_facets x)) k = Some i ->
     dofWeight m (s_index x) k (if Z.min e1 e2 =? s_index x then len i else opp (len i))).
  { intros x k I K1. destruct (WT x k i I K1) as (low & W & LO). rewrite Q in LO. destruct LO as (L1 & L3); [auto|].
    cbn [map fst In] in L1. pose proof (L3 (e1, k1) ltac:(now left)) as B1. pose proof (L3 (e2, k2) ltac:(now right; left)) as B2. cbn [fst] in B1, B2.
    assert (low = Z.min e1 e2) by (destruct L1 as [L1|[L1|[]]]; lia). subst low. exact W. }
  pose proof (WX x1 k1 I1 F1) as W1. pose proof (WX x2 k2 I2 F2) as W2. rewrite X1 in W1. rewrite X2 in W2.
  destruct (Z.ltb_spec e1 e2).
  - rewrite Z.min_l in W1, W2 by lia. rewrite Z.eqb_refl in W1. destruct (Z.eqb_spec e1 e2); [lia|]. auto.
  - rewrite Z.min_r in W1, W2 by lia. rewrite Z.eqb_refl in W2. destruct (Z.eqb_spec e2 e1); [lia|]. auto.
Qed.
Print Assumptions C31_rwg_dofs.

(** C72: what holds in every dof mode and on every grid *)
Theorem C72_rwg_any_valence_partial (K : star_ring) g (len : Z -> K) s put edgeOn elementOn : gridOk g -> fits g s -> triangles g ->
  (edgeOn || elementOn) = true -> g_n0 g <= INT_MAX ->
  exists (m : dofmap K) edges, rwgAssign g len s put edgeOn elementOn = Some m /\ consistent m /\ flatEnumerates m /\
    StronglySorted Z.lt edges /\ length edges = globalDofCount m /\
    (forall i, In i edges <-> 0 <= i < g_n1 g /\ rwgEdgeHasDof g s put edgeOn elementOn i) /\
    (forall d i, nth_error edges d = Some i -> nth_error (dm_g2l m) d = Some (activeSides g s elementOn i)) /\
    (forall e k i, In e (g_elts g) -> nth_error (map fst (s_facets e)) k = Some i ->
       exists low, dofWeight m (s_index e) k (if low =? s_index e then len i else opp (len i)) /\
       ((edgeOn = true -> holds s 1 i) -> In low (map fst (sidesOn g i)) /\ forall x, In x (sidesOn g i) -> low <= fst x)).
Proof. exact (@rwg_core K g len s put edgeOn elementOn). Qed.
Print Assumptions C72_rwg_any_valence_partial.

(** ---- concrete grids ---- *)
(** two triangles sharing an edge *)
Definition twoTri : sgrid := SGrid
  [ SElt 0 0 [(0, [0;1]); (1, [2;0]); (2, [1;2])] [0;1;2];
    SElt 1 1 [(3, [1;3]); (2, [2;1]); (4, [3;2])] [1;3;2] ] 5 4.
(** three triangles sharing an edge *)
Definition fan : sgrid := SGrid
  [ SElt 0 0 [(0, [0;1]); (1, [2;0]); (2, [1;2])] [0;1;2];
    SElt 1 0 [(0, [0;1]); (3, [3;0]); (4, [1;3])] [0;1;3];
    SElt 2 0 [(0, [0;1]); (5, [4;0]); (6, [1;4])] [0;1;4] ] 7 5.
Ltac gridok := split; [cbn; repeat constructor; cbn; intuition discriminate|];
  repeat split; intros; repeat match goal with
   | H : In _ (g_elts _) |- _ => cbn in H
   | H : _ \/ _ |- _ => destruct H
   | H : False |- _ => destruct H
   | H : _ = ?e |- _ => subst e
   | H : hasFacet _ _ |- _ => unfold hasFacet in H; cbn in H
   | H : hasVertex _ _ |- _ => unfold hasVertex in H; cbn in H
   | H : In _ (s_facets _) |- _ => cbn in H
   | H : In _ (snd _) |- _ => cbn in H
   | |- hasVertex _ _ => unfold hasVertex; cbn
   end; cbn; try lia; auto 6.
Lemma twoTri_ok : gridOk twoTri. Proof. gridok. Qed.
Lemma fan_ok : gridOk fan. Proof. gridok. Qed.
Lemma whole_fits g : (forall c, (c <= 2)%nat -> 0 <= gridCounts g c) -> fits g (wholeGrid g).
Proof. intros _ c H. split; [reflexivity|]. intros x []. Qed.
Lemma twoTri_triangles : triangles twoTri.
Proof. intros e [<-|[<-|[]]]; (split; [reflexivity|]); cbn; repeat constructor; cbn; intuition discriminate. Qed.
Lemma fan_triangles : triangles fan.
Proof. intros e [<-|[<-|[<-|[]]]]; (split; [reflexivity|]); cbn; repeat constructor; cbn; intuition discriminate. Qed.
Example p1_twoTri : p1Assign (K := Zsr) twoTri (wholeGrid twoTri) false =
  Some (DofMap (K := Zsr) [[0;1;2];[1;3;2]] [[1;1;1];[1;1;1]]
     [[(0, 0%nat)]; [(0, 1%nat); (1, 0%nat)]; [(0, 2%nat); (1, 2%nat)]; [(1, 1%nat)]]
     [(0, 0%nat); (0, 1%nat); (0, 2%nat); (1, 0%nat); (1, 1%nat); (1, 2%nat)]).
Proof. vm_compute. reflexivity. Qed.
(** the closed domain {1} in the strict mode: vertex 0 and element 0 drop out *)
Example p1_strict : p1Assign (K := Zsr) twoTri (closedDomain twoTri [1]) true =
  Some (DofMap (K := Zsr) [[-1;-1;-1];[0;2;1]] [[1;1;1];[1;1;1]]
     [[(1, 0%nat)]; [(1, 2%nat)]; [(1, 1%nat)]] [(1, 0%nat); (1, 1%nat); (1, 2%nat)]).
Proof. vm_compute. reflexivity. Qed.
Example rwg_twoTri : rwgAssign (K := Zsr) twoTri (fun i => i + 10) (wholeGrid twoTri) false true false =
  Some (DofMap (K := Zsr) [[-1;-1;0];[-1;0;-1]] [[10;11;12];[13;-12;14]] [[(0, 2%nat); (1, 1%nat)]] [(0, 2%nat); (1, 1%nat)]).
Proof. vm_compute. reflexivity. Qed.
Example twoTri_manifold : forall i, (length (sidesOn twoTri i) <= 2)%nat.
Proof.
  intro i. assert (H : i = 0 \/ i = 1 \/ i = 2 \/ i = 3 \/ i = 4 \/ (i < 0 \/ 4 < i)) by lia.
  destruct H as [-> |[-> |[-> |[-> |[-> |H]]]]]; try (vm_compute; lia).
  unfold sidesOn, twoTri. cbn [g_elts flat_map s_facets length seq map fst nth_error].
  repeat match goal with |- context [?a =? i] => destruct (Z.eqb_spec a i); [lia|] end. cbn. lia.
 Qed.

(** C72 refuted: with three elements at an edge the dof is attached to three elements, with
    weights +, -, -: boundary dofs not requested, default mode. *)
Theorem C72_rwg_two_elements_refuted :
  exists g s, gridOk g /\ fits g s /\ triangles g /\
    exists m : dofmap Zsr, rwgAssign (K := Zsr) g (fun _ => 1) s false true false = Some m /\
      nth_error (dm_g2l m) 0 = Some [(0, 0%nat); (1, 0%nat); (2, 0%nat)] /\
      dofWeight (K := Zsr) m 0 0 1 /\ dofWeight (K := Zsr) m 1 0 (-1) /\ dofWeight (K := Zsr) m 2 0 (-1).
Proof.
  exists fan, (wholeGrid fan). split; [exact fan_ok|]. split; [apply whole_fits; intros [|[|[|]]] _; cbn; lia|]. split; [exact fan_triangles|].
  eexists. split; [vm_compute; reflexivity|]. cbn [dm_g2l dm_w]. split; [reflexivity|]. unfold dofWeight. cbn [dm_w].
  repeat split; eexists; split; reflexivity.
Qed.
Print Assumptions C72_rwg_two_elements_refuted.
(** ... and with ELEMENT_ON_SEGMENT an edge between an element of the segment and another element
    carries a dof that lives on one element only (boundary dofs not requested) *)
Theorem C72_rwg_element_mode_refuted :
  exists g s, gridOk g /\ fits g s /\ triangles g /\ (forall i, (length (sidesOn g i) <= 2)%nat) /\
    exists m : dofmap Zsr, rwgAssign (K := Zsr) g (fun _ => 1) s false true true = Some m /\
      dm_g2l m = [[(0, 2%nat)]].
Proof.
  exists twoTri, (closedDomain twoTri [0]). split; [exact twoTri_ok|]. split.
  { intros [|[|[|]]] H; try lia; (split; [reflexivity|]); intros x I; vm_compute in I; cbn; intuition lia. }
  split; [exact twoTri_triangles|]. split; [exact twoTri_manifold|]. eexists. split; [vm_compute; reflexivity|]. reflexivity.
Qed.
Print Assumptions C72_rwg_element_mode_refuted.

(** C73: flat local dofs of piecewise constants on a segment.  The flat local dofs are all
    elements, so their number differs from the number of active local dofs, and building the map
    from global to flat local dofs throws. *)
Theorem C73_p0_segment_flat_partial (K : star_ring) g s : gridOk g ->
  exists m : dofmap K, p0Assign g s = Some m /\
    dm_flat m = map (fun i => (Z.of_nat i, 0%nat)) (seq 0 (length (g_elts g))) /\
    (inIndexOrder g -> (forall e, In e (g_elts g) -> holds s 0 (s_index e)) -> flatEnumerates m).
Proof.
  intro G. destruct (@p0_core K g s G) as (m & E & _ & _ & _ & FL & _). exists m. split; [exact E|]. split; [exact FL|].
  intros IO W. destruct (@C30_piecewise_constant_dofs K g s G) as (m' & E' & _ & _ & _ & O).
  assert (m' = m) by congruence. subst m'. apply (O IO W).
Qed.
Print Assumptions C73_p0_segment_flat_partial.
Theorem C73_p0_segment_flat_refuted :
  exists g s, gridOk g /\ fits g s /\ inIndexOrder g /\
    exists m : dofmap Zsr, p0Assign g s = Some m /\ ~ flatEnumerates m /\
      flatLocalDofCount m <> globalDofCount m /\ mappingMatrix m = None.
Proof.
  exists twoTri, (closedDomain twoTri [1]). split; [exact twoTri_ok|]. split.
  { intros [|[|[|]]] H; try lia; (split; [reflexivity|]); intros x I; vm_compute in I; cbn; intuition lia. }
  split; [reflexivity|]. eexists. split; [vm_compute; reflexivity|]. split; [|split].
  - intros (_ & H). specialize (H 0 0%nat). destruct H as (H & _).
    destruct H as (d & (ds & A & B) & D); [now left|]. vm_compute in A. injection A as <-. vm_compute in B. injection B as <-. vm_compute in D. congruence.
  - vm_compute. discriminate.
  - vm_compute. reflexivity.
Qed.
Print Assumptions C73_p0_segment_flat_refuted.

(** C32: one entry 1 per flat local dof, in the column of its global dof; for the scalar spaces this
    is the dof weight (C29, C30 give weight one) *)
Theorem C32_global_to_flat_matrix (K : star_ring) g s strict (m : dofmap K) : gridOk g -> fits g s ->
  (p1Assign g s strict = Some m \/ dp1Assign g s strict = Some m) ->
  exists M, mappingMatrix m = Some M /\ m_rows M = flatLocalDofCount m /\ m_cols M = globalDofCount m /\
  forall r e i d w, nth_error (dm_flat m) r = Some (e, i) -> globalDof m e i d -> dofWeight m e i w ->
    forall c, m_at M r c = if Z.of_nat c =? d then w else zero.
Proof.
  intros G F H.
  assert (X : consistent m /\ dm_flat m = initializeLocal2FlatLocalDofMap (dm_l2g m) /\
    forall e i w, dofWeight m e i w -> w = one).
  { destruct H as [H|H].
    - destruct (@p1_core K g s strict G F) as (m' & vs & E & C & FE & _ & _ & _ & P). assert (m' = m) by congruence. subst m'.
      destruct (p1_shape _ _ _ H) as (LL & FL). split; [exact C|]. split; [exact FL|].
      intros e i w W. destruct C as (C1 & C2 & _). destruct (proj2 (C2 e i) (ex_intro _ w W)) as (d & ds & A & B).
      assert (RR : exists x, In x (g_elts g) /\ s_index x = e).
      { apply indices_cover; [now apply gridOk_indices|]. apply zget_lt in A. lia. }
      destruct RR as (x & I & <-). destruct (P x I) as (ds' & _ & _ & A3 & _). destruct W as (ws & W1 & W2).
      assert (ws = repeat one (length (s_verts x))) by congruence. subst ws. apply nth_error_In, repeat_spec in W2. exact W2.
    - destruct (@dp1_core K s strict (g_elts g) (gridOk_indices G)) as (l2g & w & sel & E & L & Es & P & C).
      unfold dp1Assign in H. rewrite E in H. cbn [obind] in H. injection H as <-. split; [apply C|]. split; [reflexivity|].
      intros e i v W. pose proof (C (initializeLocal2FlatLocalDofMap l2g)) as (_ & C2 & _).
      destruct (proj2 (C2 e i) (ex_intro _ v W)) as (d & ds & A & B).
      destruct (@indices_cover (g_elts g) e (gridOk_indices G)) as (x & I & <-). { rewrite <- L. apply zget_lt in A. exact A. }
      destruct (P x I) as (ds' & _ & _ & A3 & _). destruct W as (ws & W1 & W2). cbn [dm_w] in W1.
      assert (ws = repeat one (length (s_verts x))) by congruence. subst ws. apply nth_error_In, repeat_spec in W2. exact W2. }
  destruct X as (C & HF & W1). destruct (mapping_ok C HF) as (M & E & R1 & R2 & P). exists M. do 3 (split; [assumption|]).
  intros r e i d w Hr GD W c. rewrite (P r e i d Hr GD c), (W1 _ _ _ W). reflexivity.
Qed.
Print Assumptions C32_global_to_flat_matrix.
(** C74: spaces with weights: every space gets ones *)
Theorem C74_weighted_mapping_partial (K : star_ring) (m : dofmap K) :
  consistent m -> dm_flat m = initializeLocal2FlatLocalDofMap (dm_l2g m) ->
  exists M, mappingMatrix m = Some M /\ m_rows M = flatLocalDofCount m /\ m_cols M = globalDofCount m /\
  forall r e i d, nth_error (dm_flat m) r = Some (e, i) -> globalDof m e i d ->
    forall c, m_at M r c = if Z.of_nat c =? d then one else zero.
Proof. exact (@mapping_ok K m). Qed.
Print Assumptions C74_weighted_mapping_partial.
(** for RWG functions the entry is not the weight *)
Theorem C74_weighted_mapping_refuted :
  exists g s, gridOk g /\ fits g s /\ triangles g /\
   exists (m : dofmap Zsr) M, rwgAssign (K := Zsr) g (fun _ => 5) s false true false = Some m /\ mappingMatrix m = Some M /\
     nth_error (dm_flat m) 1 = Some (1, 1%nat) /\ globalDof m 1 1 0 /\ dofWeight (K := Zsr) m 1 1 (-5) /\ m_at M 1%nat 0%nat = 1.
Proof.
  exists twoTri, (wholeGrid twoTri). split; [exact twoTri_ok|]. split; [apply whole_fits; intros [|[|[|]]] _; cbn; lia|]. split; [exact twoTri_triangles|].
  eexists. eexists. split; [vm_compute; reflexivity|]. split; [cbn; reflexivity|]. split; [reflexivity|].
  split; [eexists; split; reflexivity|]. split; [eexists; split; reflexivity|]. reflexivity.
Qed.
Print Assumptions C74_weighted_mapping_refuted.

(** The spaces satisfy what the assembly theorems (C33-C37) assume of a space. *)
Theorem C29_space_meets_assembly (K : star_ring) (m : dofmap K) :
  consistent m -> dofsInRange (spaceOf m) /\ g2lInverse (spaceOf m).
Proof. exact (@spaceOf_ok K m). Qed.
Print Assumptions C29_space_meets_assembly.
