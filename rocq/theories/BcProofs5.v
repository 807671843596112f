From Coq Require Import Reals Lra Sorted.
From Verif Require Import Base ComplexR SegModel SegSpec SegProofs AsmModel SpaceModel SpaceSpec SpaceProofs SpaceP1Proofs SpaceRwgProofs PolySpec PolyProofs6 VecModel VecSpec VecProofs3 VecProofs4
  BaryModel BarySpec BaryProofs BaryProofs2 BaryProofs3 BaryProofs4 BcModel BcSpec BcProofs BcProofs2 BcProofs3 BcProofs4.
Set Implicit Arguments.
Unset Strict Implicit.
Local Open Scope Z_scope.

Lemma oseq_concat3 A (t : A) B (f : nat -> option (list B)) (F : nat -> list B) : (forall k, (k < 3)%nat -> f k = Some (F k)) ->
  (ls <- oseq (map f (seq 0 3)) ;; Some (concat ls)) = Some (flat_map F (seq 0 3)).
Proof.
  intro H. rewrite (@SpaceProofs.oseq_map _ _ f F) by (intros k I; apply in_seq in I; apply H; lia). cbn [obind]. now rewrite flat_map_concat_map.
Qed.
Lemma in_flat3 B (F : nat -> list B) x : In x (flat_map F (seq 0 3)) <-> exists k, (k < 3)%nat /\ In x (F k).
Proof. rewrite in_flat_map. split; intros (k & A & C); exists k; (split; [|exact C]); [apply in_seq in A; lia|apply in_seq; lia]. Qed.
Lemma in_concat_map A B (F : A -> list B) l x : In x (concat (map F l)) <-> exists a, In a l /\ In x (F a).
Proof. rewrite <- flat_map_concat_map. apply in_flat_map. Qed.

Section Tables.
Variables (g fg : sgrid) (son : Z -> nat -> Z).
Hypotheses (G : gridOk g) (TR : triangulation g) (RF : refinement g fg son) (OS : orientedSurface g) (NE : noIsolatedEdge g) (IM : g_n0 fg <= INT_MAX).
Notation corner := (corner g).
Notation face := (face son).
Notation fe := (fe fg son).
Notation fT := (fT fg son).
Lemma fedge_edg t k : In t (g_elts fg) -> (k < 3)%nat -> fedge t k = Some (edg t k).
Proof.
  intros I K. destruct (triangulation_triangles (FT RF) I) as (L & _). unfold fedge, edg. rewrite <- nth_error_map. apply nth_error_nth'. rewrite map_length. lia.
Qed.
Lemma fvert_vtx t k : In t (g_elts fg) -> (k < 3)%nat -> fvert t k = Some (vtx t k).
Proof. intros I K. unfold fvert. apply (corner_vtx (FT RF)); auto. Qed.
Lemma index_fT x odd : corner x -> s_index (fT x odd) = face x odd.
Proof. intro C. apply (fT_spec RF odd C). Qed.
Lemma in_fT x odd : corner x -> In (fT x odd) (g_elts fg).
Proof. intro C. apply (fT_spec RF odd C). Qed.

Lemma e2f_spec : exists e2f, edgesToFaces fg = Some e2f /\
  (forall x, corner x -> zget e2f (fe x true 0) = Some (face x true) /\ zget e2f (fe x false 0) = Some (face x false)) /\
  (forall x, corner x -> boundaryEdge g (inE x) -> zget e2f (fe x false 1) = Some (-1)).
Proof.
  unfold edgesToFaces. rewrite (@SpaceProofs.oseq_map _ _ _ (fun t => (edg t 0, s_index t))) by (intros t I; now rewrite (fedge_edg I) by lia). cbn [obind].
  set (ws := map (fun t => (edg t 0, s_index t)) (g_elts fg)).
  assert (IW : forall z f, In (z, f) ws <-> exists x odd, corner x /\ z = fe x odd 0 /\ f = face x odd).
  { intros z f. unfold ws. rewrite in_map_iff. split.
    - intros (t & E & I). injection E as <- <-. destruct (all_fT G RF I) as (x & odd & C & ->). exists x, odd. split; [exact C|]. split; [reflexivity|now apply index_fT].
    - intros (x & odd & C & -> & ->). exists (fT x odd). split; [now rewrite index_fT|now apply in_fT]. }
  assert (RG : forall z f, In (z, f) ws -> 0 <= z < Z.of_nat (length (repeat (-1) (Z.to_nat (g_n1 fg))))).
  { intros z f I. apply IW in I as (x & odd & C & -> & _). rewrite repeat_length. pose proof (fe_range RF odd C (t := 0) ltac:(lia)). lia. }
  destruct (writes_spec RG) as (e2f & E & L & _). exists e2f. split; [exact E|]. split.
  - intros x C. split; eapply writes_value; try eassumption.
    + apply IW. exists x, true. auto.
    + intros f I. apply IW in I as (y & odd & Cy & Q & ->). apply (fe_kind G TR RF) in Q; auto; try lia. destruct odd; [|discriminate].
      rewrite !kind_odd0 in Q. injection Q as Q1 Q2. f_equal. symmetry. now apply (out_unique G TR OS).
    + apply IW. exists x, false. auto.
    + intros f I. apply IW in I as (y & odd & Cy & Q & ->). apply (fe_kind G TR RF) in Q; auto; try lia. destruct odd; [discriminate|].
      unfold kindOf in Q. injection Q as Q1 Q2. f_equal. symmetry. now apply (corner_eq G TR).
  - intros x C B. rewrite (writes_none RG E).
    + apply zget_repeat. pose proof (fe_range RF false C (t := 1) ltac:(lia)). lia.
    + intros f I. apply IW in I as (y & odd & Cy & Q & ->). apply (fe_kind G TR RF) in Q; auto; try lia. destruct odd; [|discriminate].
      rewrite kind_odd0, kind_even1 in Q. injection Q as Q1 Q2. pose proof (inSide TR C) as S1. pose proof (outSide TR Cy) as S2. rewrite <- Q2 in S2. pose proof (one_side B S1 S2) as X. injection X as X _.
      revert X. now apply (in_out_neq G TR).
Qed.
Lemma f2e_spec : exists f2e, facesToEdges fg = Some f2e /\ forall x odd, corner x -> zget f2e (face x odd) = Some (fe x odd 1).
Proof.
  unfold facesToEdges. rewrite (@SpaceProofs.oseq_map _ _ _ (fun t => (s_index t, edg t 1))) by (intros t I; now rewrite (fedge_edg I) by lia). cbn [obind].
  set (ws := map (fun t => (s_index t, edg t 1)) (g_elts fg)).
  assert (IW : forall z f, In (z, f) ws <-> exists x odd, corner x /\ z = face x odd /\ f = fe x odd 1).
  { intros z f. unfold ws. rewrite in_map_iff. split.
    - intros (t & E & I). injection E as <- <-. destruct (all_fT G RF I) as (x & odd & C & ->). exists x, odd. split; [exact C|]. split; [now apply index_fT|reflexivity].
    - intros (x & odd & C & -> & ->). exists (fT x odd). split; [now rewrite index_fT|now apply in_fT]. }
  assert (RG : forall z f, In (z, f) ws -> 0 <= z < Z.of_nat (length (repeat (-1) (nF fg)))).
  { intros z f I. apply IW in I as (x & odd & C & -> & _). rewrite repeat_length. apply (face_range G RF odd C). }
  destruct (writes_spec RG) as (f2e & E & L & _). exists f2e. split; [exact E|]. intros x odd C. eapply writes_value; try eassumption.
  - apply IW. exists x, odd. auto.
  - intros f I. apply IW in I as (y & odd' & Cy & Q & ->). apply (face_inj G RF) in Q as (<- & <-); auto.
Qed.
Lemma fcnt_spec : exists fcnt, faceCounts fg = Some fcnt /\ forall x odd t, corner x -> (t < 3)%nat -> zget fcnt (fe x odd t) = Some (Z.of_nat (fineCount fg (fe x odd t))).
Proof.
  destruct (counts_spec (FG RF) (triangulation_triangles (FT RF))) as (cnt & low & E & _ & _ & _ & H). exists cnt. split; [exact E|]. intros x odd t C T. apply (H (fe x odd t)). now apply (fe_range RF).
Qed.
Lemma boundaryWrites_spec fcnt (f : selt -> nat -> option (Z * Z)) (F : selt -> nat -> Z * Z) :
  (forall x odd t, corner x -> (t < 3)%nat -> zget fcnt (fe x odd t) = Some (Z.of_nat (fineCount fg (fe x odd t)))) ->
  (forall x odd t, corner x -> (t < 3)%nat -> f (fT x odd) t = Some (F (fT x odd) t)) ->
  exists ws, oseq (map (boundaryWrites fcnt f) (g_elts fg)) = Some ws /\
    forall p, In p (concat ws) <-> exists x odd t, corner x /\ (t < 3)%nat /\ fineCount fg (fe x odd t) = 1%nat /\ p = F (fT x odd) t.
Proof.
  intros H HF. rewrite (@SpaceProofs.oseq_map _ _ _ (fun t => flat_map (fun k => if Nat.eqb (fineCount fg (edg t k)) 1 then [F t k] else []) (seq 0 3))).
  - eexists. split; [reflexivity|]. intro p. rewrite in_concat_map. split.
    + intros (t & I & P). apply in_flat3 in P as (k & K & P). destruct (all_fT G RF I) as (x & odd & C & ->). exists x, odd, k.
      destruct (Nat.eqb_spec (fineCount fg (edg (fT x odd) k)) 1); [|destruct P]. destruct P as [<-|[]]. auto.
    + intros (x & odd & t & C & T & Q & ->). exists (fT x odd). split; [now apply in_fT|]. apply in_flat3. exists t. split; [exact T|]. unfold BcProofs3.fe in Q. rewrite Q. now left.
  - intros t I. unfold boundaryWrites. apply (oseq_concat3 t). intros k K. destruct (all_fT G RF I) as (x & odd & C & ->). rewrite (fedge_edg I K). cbn [obind].
    change (edg (fT x odd) k) with (fe x odd k). rewrite H by auto. cbn [obind]. rewrite HF by auto.
    destruct (Nat.eqb_spec (fineCount fg (fe x odd k)) 1) as [Q|Q].
    + rewrite Q. reflexivity.
    + destruct (Z.eqb_spec (Z.of_nat (fineCount fg (fe x odd k))) 1); [lia|reflexivity].
Qed.
Lemma b2v_spec fcnt : (forall x odd t, corner x -> (t < 3)%nat -> zget fcnt (fe x odd t) = Some (Z.of_nat (fineCount fg (fe x odd t)))) ->
  exists b2v, boundaryEdgesToVertices fg fcnt = Some b2v /\ forall x, corner x -> boundaryEdge g (inE x) -> zget b2v (fe x false 1) = Some (cv x).
Proof.
  intro H. unfold boundaryEdgesToVertices.
  destruct (@boundaryWrites_spec fcnt (fun t k => ed <- fedge t k ;; v <- fvert t (toVertex k) ;; Some (ed, v)) (fun t k => (edg t k, vtx t (toVertex k))) H) as (ws & E & IW).
  { intros x odd t C T. rewrite (fedge_edg (in_fT odd C) T). cbn [obind]. rewrite (fvert_vtx (in_fT odd C)); [reflexivity|]. dig t; cbn; lia. }
  rewrite E. cbn [obind].
  assert (RG : forall z f, In (z, f) (concat ws) -> 0 <= z < Z.of_nat (length (repeat (-1) (Z.to_nat (g_n1 fg))))).
  { intros z f I. apply IW in I as (x & odd & t & C & T & _ & Q). injection Q as -> _. rewrite repeat_length. pose proof (fe_range RF odd C T). unfold BcProofs3.fe in *. lia. }
  destruct (writes_spec RG) as (b2v & E1 & L & _). exists b2v. split; [exact E1|]. intros x C B.
  assert (CT : fineCount fg (fe x false 1) = 1%nat) by (apply (count_VM G TR RF OS C (t := 1) ltac:(lia) (kind_even1 x)); exact B).
  assert (VV : vtx (fT x false) (toVertex 1) = cv x).
  { destruct (fT_spec RF false C) as (_ & _ & V). unfold vtx at 1. rewrite V. reflexivity. }
  eapply writes_value; try eassumption.
  - apply IW. exists x, false, 1%nat. rewrite VV. auto.
  - intros v I. apply IW in I as (y & odd & t & Cy & T & Q & P). injection P as P ->.
    assert (S1 : In (face x false, 1%nat) (sidesOn fg (fe x false 1))) by (apply (fine_sides G RF); exists x, false; split; [exact C|]; split; [reflexivity|]; split; [lia|reflexivity]).
    assert (S2 : In (face y odd, t) (sidesOn fg (fe x false 1))) by (apply (fine_sides G RF); exists y, odd; split; [exact Cy|]; split; [reflexivity|]; split; [exact T|exact (eq_sym P)]).
    pose proof (one_side CT S1 S2) as X. injection X as X <-. apply (face_inj G RF) in X as (<- & <-); auto.
Qed.
Lemma entity_counts : 0 <= g_n1 g /\ 0 <= g_n2 g -> g_n2 g + g_n1 g <= Z.of_nat (length (g_elts fg)).
Proof.
  intros (H1 & H2). destruct RF as (_ & _ & _ & L & _). rewrite L.
  assert (A : (Z.to_nat (g_n1 g) <= 3 * length (g_elts g))%nat).
  { rewrite <- (zrange_length (g_n1 g)). transitivity (length (flat_map (fun e => map fst (s_facets e)) (g_elts g))).
    - apply NoDup_incl_length; [apply SS_NoDup, zrange_SS|]. intros i I. apply in_zrange in I. destruct (NE I) as (e & Ie & F). apply in_flat_map. exists e. auto.
    - clear -TR. assert (X : forall e, In e (g_elts g) -> length (s_facets e) = 3%nat) by (intros e I; apply (triangulation_triangles TR I)).
      induction (g_elts g) as [|e es IH]; cbn [flat_map length]; [lia|]. rewrite app_length, map_length, (X e) by now left. specialize (IH (fun e I => X e (or_intror I))). lia. }
  assert (B : (Z.to_nat (g_n2 g) <= 3 * length (g_elts g))%nat).
  { rewrite <- (zrange_length (g_n2 g)). transitivity (length (flat_map s_verts (g_elts g))).
    - apply NoDup_incl_length; [apply SS_NoDup, zrange_SS|]. intros v I. apply in_zrange in I. destruct OS as (_ & FA). destruct (FA v I) as (o & l & F).
      pose proof F as (N & _ & M & _). destruct l as [|(e, k) l]; [contradiction|]. destruct (proj1 (M e k)) as (Ie & K); [now left|]. apply in_flat_map. exists e. split; [exact Ie|]. eapply nth_error_In; exact K.
    - clear -TR. assert (X : forall e, In e (g_elts g) -> length (s_verts e) = 3%nat) by (intros e I; destruct (proj1 TR e I) as (a & b & c & _ & _ & _ & -> & _); reflexivity).
      induction (g_elts g) as [|e es IH]; cbn [flat_map length]; [lia|]. rewrite app_length, (X e) by now left. specialize (IH (fun e I => X e (or_intror I))). lia. }
  lia.
Qed.
Lemma v2b_spec fcnt : (forall x odd t, corner x -> (t < 3)%nat -> zget fcnt (fe x odd t) = Some (Z.of_nat (fineCount fg (fe x odd t)))) ->
  exists v2b, verticesToBoundaryEdges fg fcnt = Some v2b /\ forall x, corner x -> boundaryEdge g (outE x) -> zget v2b (cv x) = Some (fe x true 0).
Proof.
  intro H. unfold verticesToBoundaryEdges.
  destruct (@boundaryWrites_spec fcnt (fun t k => ed <- fedge t k ;; v <- fvert t (fromVertex k) ;; Some (v, ed)) (fun t k => (vtx t (fromVertex k), edg t k)) H) as (ws & E & IW).
  { intros x odd t C T. rewrite (fedge_edg (in_fT odd C) T). cbn [obind]. rewrite (fvert_vtx (in_fT odd C)); [reflexivity|]. dig t; cbn; lia. }
  rewrite E. cbn [obind].
  (* what is written *)
  assert (WH : forall z f, In (z, f) (concat ws) -> exists x, corner x /\ (z = cv x /\ f = fe x true 0 /\ boundaryEdge g (outE x) \/ z = g_n2 g + inE x)).
  { intros z f I. apply IW in I as (x & odd & t & C & T & Q & P). exists x. split; [exact C|]. injection P as -> ->. destruct (fT_spec RF odd C) as (_ & _ & V). unfold vtx at 1 2. rewrite V.
    dig t; destruct odd; cbn [fromVertex nth].
    - left. split; [reflexivity|]. split; [reflexivity|]. apply (count_VM G TR RF OS C (t := 0) ltac:(lia) (kind_odd0 x)). exact Q.
    - exfalso. destruct (count_VB G TR RF C) as (_ & N). auto.
    - exfalso. destruct (count_VB G TR RF C) as (N & _). auto.
    - right. reflexivity.
    - exfalso. exact (count_MB G TR RF C Q).
    - exfalso. exact (count_MB G TR RF C Q). }
  assert (RG : forall z f, In (z, f) (concat ws) -> 0 <= z < Z.of_nat (length (repeat (-1) (nF fg)))).
  { intros z f I. apply WH in I as (x & C & D). rewrite repeat_length. destruct C as (I & K). pose proof (vtx_range G TR I K) as V. destruct (sides_lt K) as (A & _). pose proof (edg_range G TR I A) as W.
    pose proof (entity_counts ltac:(lia)). unfold nF. destruct D as [(-> & _)| ->]; unfold cv, inE; lia. }
  destruct (writes_spec RG) as (v2b & E1 & L & _). exists v2b. split; [exact E1|]. intros x C B.
  assert (CT : fineCount fg (fe x true 0) = 1%nat) by (apply (count_VM G TR RF OS C (t := 0) ltac:(lia) (kind_odd0 x)); exact B).
  assert (VV : vtx (fT x true) (fromVertex 0) = cv x).
  { destruct (fT_spec RF true C) as (_ & _ & V). unfold vtx at 1. rewrite V. reflexivity. }
  eapply writes_value; try eassumption.
  - apply IW. exists x, true, 0%nat. split; [exact C|]. split; [lia|]. split; [exact CT|]. rewrite VV. reflexivity.
  - intros v I. apply WH in I as (y & Cy & [(Q & -> & By)|Q]).
    + destruct (fan_of G TR OS C) as (o & l & F & Ix). assert (Iy : In y l) by (apply (fan_in TR y F); auto).
      destruct (out_boundary G TR F Ix B) as (_ & N1). destruct (out_boundary G TR F Iy By) as (_ & N2). congruence.
    + exfalso. destruct C as (I & K). pose proof (vtx_range G TR I K) as V. destruct Cy as (Iy & Ky). destruct (sides_lt Ky) as (A & _). pose proof (edg_range G TR Iy A) as W. unfold cv, inE in *. lia.
Qed.
Lemma next_spec : exists fcnt e2f f2e b2v v2b nx, faceCounts fg = Some fcnt /\ edgesToFaces fg = Some e2f /\ facesToEdges fg = Some f2e /\
  boundaryEdgesToVertices fg fcnt = Some b2v /\ verticesToBoundaryEdges fg fcnt = Some v2b /\ nextFaces fg e2f f2e b2v v2b = Some nx /\
  (forall x, corner x -> zget nx (face x true) = Some (face x false)) /\
  (forall v o l x y, fanAt g v o l -> cyc l x y -> zget nx (face x false) = Some (face y true)) /\
  (forall x, corner x -> exists a y, zget f2e (face x true) = Some a /\ zget e2f a = Some y /\ y <> -1) /\
  (forall x, corner x -> exists a y, zget f2e (face x false) = Some a /\ zget e2f a = Some y /\ (y = -1 <-> boundaryEdge g (inE x))).
Proof.
  destruct fcnt_spec as (fcnt & E0 & H0). destruct e2f_spec as (e2f & E1 & H1 & H1'). destruct f2e_spec as (f2e & E2 & H2). destruct (b2v_spec H0) as (b2v & E3 & H3). destruct (v2b_spec H0) as (v2b & E4 & H4).
  set (step := fun i => a <- zget f2e i ;; n <- zget e2f a ;; if n =? -1 then v <- zget b2v a ;; b <- zget v2b v ;; zget e2f b else Some n).
  assert (FN : forall x odd, corner x -> face x odd <> -1) by (intros x odd C; pose proof (face_range G RF odd C); lia).
  assert (SO : forall x, corner x -> step (face x true) = Some (face x false)).
  { intros x C. unfold step. rewrite H2 by exact C. cbn [obind]. rewrite (fe_centre G TR RF C). destruct (H1 x C) as (_ & ->). cbn [obind].
    destruct (Z.eqb_spec (face x false) (-1)) as [Q|_]; [exfalso; now apply (FN x false)|reflexivity]. }
  assert (SE : forall v o l x y, fanAt g v o l -> cyc l x y -> step (face x false) = Some (face y true)).
  { intros v o l x y F CY. pose proof (cyc_in CY) as (Ix & Iy). apply (fan_in TR x F) in Ix as (Cx & Vx). apply (fan_in TR y F) in Iy as (Cy & Vy).
    unfold step. rewrite H2 by exact Cx. cbn [obind]. destruct (fan_cyc TR F CY) as [T|(_ & B1 & B2)].
    - rewrite (fe_turn G TR RF Cx Cy ltac:(congruence) T). destruct (H1 y Cy) as (-> & _). cbn [obind]. destruct (Z.eqb_spec (face y true) (-1)) as [Q|_]; [exfalso; now apply (FN y true)|reflexivity].
    - rewrite (H1' x Cx B1). cbn [obind Z.eqb]. change (-1 =? -1) with true. cbv iota. rewrite (H3 x Cx B1). cbn [obind]. replace (cv x) with (cv y) by congruence. rewrite (H4 y Cy B2). cbn [obind]. apply (H1 y Cy). }
  destruct (@VecProofs3.oseq_map _ _ step (zrange (Z.of_nat (nF fg)))) as (nx & EN & LN & PN).
  { intros j J. apply in_zrange in J. destruct (all_faces G RF J) as (x & odd & C & ->). destruct odd; [eauto|]. destruct (fan_of G TR OS C) as (o & l & F & I). destruct (cyc_succ I) as (y & CY). eauto. }
  assert (ZN : forall j, 0 <= j < Z.of_nat (nF fg) -> zget nx j = step j).
  { intros j J. unfold zget. destruct (Z.ltb_spec j 0); [lia|]. apply PN. pose proof (@zget_zrange _ _ J) as Q. unfold zget in Q. destruct (Z.ltb_spec j 0); [lia|exact Q]. }
  exists fcnt, e2f, f2e, b2v, v2b, nx. split; [exact E0|]. split; [exact E1|]. split; [exact E2|]. split; [exact E3|]. split; [exact E4|]. split; [exact EN|].
  split; [|split; [|split]].
  - intros x C. rewrite ZN by apply (face_range G RF true C). now apply SO.
  - intros v o l x y F CY. pose proof (cyc_in CY) as (Ix & _). apply (fan_in TR x F) in Ix as (Cx & _). rewrite ZN by apply (face_range G RF false Cx). eapply SE; eassumption.
  - intros x C. exists (fe x false 0), (face x false). rewrite H2, (fe_centre G TR RF C) by exact C. split; [reflexivity|]. split; [apply (H1 x C)|now apply FN].
  - intros x C. rewrite H2 by exact C. destruct (fan_of G TR OS C) as (o & l & F & I). destruct (cyc_succ I) as (y & CY). pose proof (cyc_in CY) as (_ & Iy). apply (fan_in TR y F) in Iy as (Cy & Vy).
    exists (fe x false 1). destruct (fan_cyc TR F CY) as [T|(_ & B1 & B2)].
    + exists (face y true). split; [reflexivity|]. rewrite (fe_turn G TR RF C Cy ltac:(congruence) T). split; [apply (H1 y Cy)|]. split; [intro Q; exfalso; now apply (FN y true)|].
      intro B. exfalso. pose proof (outSide TR Cy) as S1. rewrite <- T in S1. pose proof (one_side B (inSide TR C) S1) as X. injection X as X _. revert X. apply (in_out_neq G TR); auto.
    + exists (-1). split; [reflexivity|]. split; [now apply H1'|]. tauto.
Qed.
End Tables.
