From Coq Require Import Reals Lra Sorted.
From Verif Require Import Base ComplexR SegModel SegSpec SegProofs AsmModel SpaceModel SpaceSpec SpaceProofs SpaceP1Proofs SpaceRwgProofs PolySpec PolyProofs6 VecModel VecSpec VecProofs3 VecProofs4
  BaryModel BarySpec BaryProofs BaryProofs2 BaryProofs3 BaryProofs4 BcModel BcSpec BcProofs BcProofs2 BcProofs3 BcProofs4 BcProofs5 BcProofs6 BcProofs7 BcProofs8 BcProofs9.
Set Implicit Arguments.
Unset Strict Implicit.
Local Open Scope Z_scope.

Lemma boundary_fold cnt v0 v1 (C X Y : Z -> Z) : forall order b,
  (forall i, In i order -> zget cnt i = Some (C i) /\ (C i = 1 -> zread v0 i = Some (X i) /\ zread v1 i = Some (Y i) /\ 0 <= X i < Z.of_nat (length b) /\ 0 <= Y i < Z.of_nat (length b))) ->
  exists b', ofold (fun b i => c <- zget cnt i ;; if c =? 1 then x <- zread v0 i ;; y <- zread v1 i ;; b' <- zset b x true ;; zset b' y true else Some b) order b = Some b' /\
    forall z q, zget b z = Some q -> zget b' z = Some (q || existsb (fun i => (C i =? 1) && ((z =? X i) || (z =? Y i)))%bool order)%bool.
Proof.
  induction order as [|i order IH]; intros b H; cbn [ofold].
  - exists b. split; [reflexivity|]. intros z q E. cbn. now rewrite orb_false_r.
  - destruct (H i (or_introl eq_refl)) as (Ci & Hi). rewrite Ci. cbn [obind]. destruct (Z.eqb_spec (C i) 1) as [E|E].
    + destruct (Hi E) as (Xi & Yi & RX & RY). rewrite Xi, Yi. cbn [obind]. destruct (zset_Some b (X i) true RX) as (b1 & E1). rewrite E1. cbn [obind].
      destruct (zset_Some b1 (Y i) true) as (b2 & E2); [rewrite (zset_length _ _ _ E1); exact RY|]. rewrite E2. cbn [obind].
      destruct (IH b2) as (b' & E' & P). { intros k I. rewrite (zset_length _ _ _ E2), (zset_length _ _ _ E1). apply H. now right. }
      exists b'. split; [exact E'|]. intros z q Q. cbn [existsb]. rewrite E. change (1 =? 1) with true. cbn [andb].
      pose proof (zset_get _ _ _ z E1) as G1. pose proof (zset_get _ _ _ z E2) as G2. rewrite G1 in G2. rewrite Q in G2.
      destruct (z =? X i), (z =? Y i); cbn [orb]; rewrite (P _ _ G2); cbn [orb]; rewrite ?orb_true_r; reflexivity.
    + destruct (IH b) as (b' & E' & P). { intros k I. apply H. now right. } exists b'. split; [exact E'|]. intros z q Q. cbn [existsb]. destruct (Z.eqb_spec (C i) 1); [contradiction|]. cbn [andb orb]. now apply P.
Qed.
Lemma numberDofs_zeros : forall cnt c, numberDofs cnt c = numberZeros (map (fun x => if x =? 1 then -1 else 0) cnt) c.
Proof.
  induction cnt as [|a cnt IH]; intro c; cbn [numberDofs map numberZeros]; [reflexivity|]. destruct (a =? 1).
  - change (-1 =? 0) with false. cbv iota. now rewrite IH.
  - change (0 =? 0) with true. cbv iota. now rewrite IH.
Qed.

Section Tables.
Variables (g fg : sgrid) (son : Z -> nat -> Z) (order : list Z).
Hypotheses (G : gridOk g) (TR : triangulation g) (RF : refinement g fg son) (OS : orientedSurface g) (NE : noIsolatedEdge g) (IM : g_n0 fg <= INT_MAX)
  (ND : NoDup order) (ORD : forall i, In i order <-> 0 <= i < g_n1 g).
Notation corner := (corner g).
Notation face := (face son).

Definition edgeInfo (t : bctables) (i : Z) (A : selt) (j : nat) (B : selt) (j' : nat) : Prop :=
  lowSide g i A j /\ In B (g_elts g) /\ (j' < 3)%nat /\ edg B j' = i /\ A <> B /\
  zread (t_face0 t) i = Some (face (A, firstCorner j) false) /\ zread (t_v0 t) i = Some (vtx A (firstCorner j)) /\
  zread (t_v1 t) i = Some (vtx A (secondCorner j)) /\ zread (t_face1 t) i = Some (face (B, firstCorner j') false).
Definition tablesOk (t : bctables) (edges : list Z) : Prop :=
  StronglySorted Z.lt edges /\ (forall i, In i edges <-> 0 <= i < g_n1 g /\ length (sidesOn g i) = 2%nat) /\ t_count t = Z.of_nat (length edges) /\
  (forall i, 0 <= i < g_n1 g -> exists d, zget (t_dofs t) i = Some d /\ dofIs edges i d) /\
  (forall x, corner x -> zget (t_next t) (face x true) = Some (face x false)) /\
  (forall v o l x y, fanAt g v o l -> cyc l x y -> zget (t_next t) (face x false) = Some (face y true)) /\
  (forall x, corner x -> exists a y, zget (t_f2e t) (face x true) = Some a /\ zget (t_e2f t) a = Some y /\ y <> -1) /\
  (forall x, corner x -> exists a y, zget (t_f2e t) (face x false) = Some a /\ zget (t_e2f t) a = Some y /\ (y = -1 <-> boundaryEdge g (inE x))) /\
  (forall v o l, 0 <= v < g_n2 g -> fanAt g v o l -> zget (t_n t) v = Some (Z.of_nat (length l)) /\ zget (t_onB t) v = Some o) /\
  (forall i, In i edges -> exists A j B j', edgeInfo t i A j B j').

Lemma sides_cases i : 0 <= i < g_n1 g -> length (sidesOn g i) = 1%nat \/ length (sidesOn g i) = 2%nat.
Proof.
  intro R. pose proof (proj1 OS i). destruct (NE R) as (e & I & H0). unfold hasFacet in H0. apply In_nth_error in H0 as (s & S). pose proof (@in_sidesOn g i e s I S) as X.
  destruct (sidesOn g i) as [|a [|b l]]; [destruct X|now left|right]. cbn in *. lia.
Qed.
Lemma IMg : g_n0 g <= INT_MAX.
Proof. destruct RF as (_ & _ & _ & L & _). unfold g_n0 in *. lia. Qed.
Lemma tables_ok : exists t edges, bcTables g fg son order = Some t /\ tablesOk t edges.
Proof.
  destruct (low_spec G TR NE IMg) as (cnt & low & EC & EL & LC & HL).
  destruct (next_spec G TR RF OS NE) as (fcnt & e2f & f2e & b2v & v2b & nx & EF & E1 & E2 & E3 & E4 & E5 & N1 & N2 & N3 & N4).
  destruct (vertexCounts_spec G TR) as (ns & ENS & HNS).
  assert (LOW : forall e k, In e (g_elts g) -> (k < 3)%nat -> exists l, zget low (edg e k) = Some l).
  { intros e k I K. destruct (HL _ (edg_range G TR I K)) as (_ & e' & s' & _ & Q). eauto. }
  destruct (@sideTable_spec g G TR _ low true (faceOf son) (fun e k => face (e, firstCorner k) false) LOW) as (f0 & EF0 & HF0).
  { intros e k I K. unfold faceOf, BcProofs3.face. cbn [fst snd]. do 2 f_equal. dig k; reflexivity. }
  destruct (@sideTable_spec g G TR _ low false (faceOf son) (fun e k => face (e, firstCorner k) false) LOW) as (f1 & EF1 & HF1).
  { intros e k I K. unfold faceOf, BcProofs3.face. cbn [fst snd]. do 2 f_equal. dig k; reflexivity. }
  destruct (@sideTable_spec g G TR _ low true vertex0Of (fun e k => vtx e (firstCorner k)) LOW) as (v0 & EV0 & HV0).
  { intros e k I K. unfold vertex0Of. apply (corner_vtx TR); [exact I|]. split; [apply (corners_lt K)|reflexivity]. }
  destruct (@sideTable_spec g G TR _ low true vertex1Of (fun e k => vtx e (secondCorner k)) LOW) as (v1 & EV1 & HV1).
  { intros e k I K. unfold vertex1Of. apply (corner_vtx TR); [exact I|]. split; [apply (corners_lt K)|reflexivity]. }
  (* the lowest side *)
  assert (LU : forall i e s l, 0 <= i < g_n1 g -> lowSide g i e s -> zget low i = Some l -> l = s_index e).
  { intros i e s l R (I & S & E & M) Q. destruct (HL i R) as (_ & e' & s' & (I' & S' & E' & M') & Q'). assert (l = s_index e') by congruence. subst l.
    assert (s_index e <= s_index e') by (apply (M (s_index e', s')); apply (in_sides TR); eauto). assert (s_index e' <= s_index e) by (apply (M' (s_index e, s)); apply (in_sides TR); eauto). lia. }
  assert (LQ : forall i e s, lowSide g i e s -> forall e' k', In e' (g_elts g) -> (k' < 3)%nat -> edg e' k' = edg e s -> Bool.eqb (s_index e =? s_index e') true = true -> e' = e /\ k' = s).
  { intros i e s (I & S & E & M) e' k' I' K' E' Q. apply eqb_prop in Q. apply Z.eqb_eq in Q. assert (e' = e) by (apply (@indices_inj _ _ _ (gridOk_indices G)); auto). subst e'. split; [reflexivity|]. eapply (edg_inj TR I); auto. }
  assert (LT : forall A (V : selt -> nat -> A) tb, (forall e k l, In e (g_elts g) -> (k < 3)%nat -> zget low (edg e k) = Some l -> Bool.eqb (l =? s_index e) true = true ->
      (forall e' k', In e' (g_elts g) -> (k' < 3)%nat -> edg e' k' = edg e k -> Bool.eqb (l =? s_index e') true = true -> e' = e /\ k' = k) -> zread tb (edg e k) = Some (V e k)) ->
      forall i e s, 0 <= i < g_n1 g -> lowSide g i e s -> zread tb i = Some (V e s)).
  { intros A0 V tb H i e s R LS. pose proof LS as (I & S & E & M). destruct (LOW e s I S) as (l & L). assert (Q : l = s_index e) by (apply (LU i e s l R LS); congruence). subst l. rewrite <- E. apply (H e s (s_index e)); auto.
    - now rewrite Z.eqb_refl.
    - now apply (LQ i e s LS). }
  pose proof (LT _ _ _ HF0) as TF0. pose proof (LT _ _ _ HV0) as TV0. pose proof (LT _ _ _ HV1) as TV1. clear LT.
  (* vertices on the boundary *)
  assert (CH : exists ce cs, forall i, 0 <= i < g_n1 g -> lowSide g i (ce i) (cs i)).
  { exists (fun i => match zget low i with Some l => match find (fun e => s_index e =? l) (g_elts g) with Some e => e | None => SElt 0 0 [] [] end | None => SElt 0 0 [] [] end).
    exists (fun i => match zget low i with Some l => match find (fun e => (s_index e =? l)%Z) (g_elts g) with Some e => if (edg e 0 =? i)%Z then 0 else if (edg e 1 =? i)%Z then 1 else 2 | None => 0 end | None => 0 end)%nat.
    intros i R. destruct (HL i R) as (_ & e & s & LS & Q). rewrite Q. pose proof LS as (I & S & E & M).
    destruct (find (fun e0 => s_index e0 =? s_index e) (g_elts g)) as [e0|] eqn:F.
    - apply find_some in F as (I0 & Q0). apply Z.eqb_eq in Q0. assert (e0 = e) by now apply (@indices_inj _ _ _ (gridOk_indices G)). subst e0.
      replace (if (edg e 0 =? i)%Z then 0 else if (edg e 1 =? i)%Z then 1 else 2)%nat with s; [exact LS|].
      destruct (Z.eqb_spec (edg e 0) i); [symmetry; eapply (edg_inj TR I); [lia|exact S|congruence]|]. destruct (Z.eqb_spec (edg e 1) i); [symmetry; eapply (edg_inj TR I); [lia|exact S|congruence]|].
      dig s; congruence.
    - exfalso. apply (find_none _ _ F) in I. rewrite Z.eqb_refl in I. discriminate. }
  destruct CH as (ce & cs & CH).
  destruct (@boundary_fold cnt v0 v1 (fun i => Z.of_nat (length (sidesOn g i))) (fun i => vtx (ce i) (firstCorner (cs i))) (fun i => vtx (ce i) (secondCorner (cs i))) order (repeat false (Z.to_nat (g_n2 g)))) as (onB & EB & HB).
  { intros i I. apply ORD in I. split; [apply (HL i I)|]. intros _. specialize (CH i I). split; [now apply TV0|]. split; [now apply TV1|]. rewrite repeat_length. destruct CH as (Ie & S & _). destruct (corners_lt S) as (K1 & K2 & _).
    pose proof (vtx_range G TR Ie K1). pose proof (vtx_range G TR Ie K2). lia. }
  assert (HONB : forall v o l, 0 <= v < g_n2 g -> fanAt g v o l -> zget onB v = Some o).
  { intros v o l R F. rewrite (HB v false) by (apply zget_repeat; lia). cbn [orb]. f_equal. apply eq_true_iff_eq. rewrite existsb_exists. split.
    - intros (i & I & Q). apply ORD in I. apply andb_prop in Q as (Q1 & Q2). apply Z.eqb_eq in Q1. specialize (CH i I). destruct CH as (Ie & S & Ei & _). destruct (corners_lt S) as (K1 & K2 & _). apply orb_prop in Q2 as [Q2|Q2]; apply Z.eqb_eq in Q2.
      + assert (In (ce i, firstCorner (cs i)) l) by (apply (fan_in TR _ F); split; [split; assumption|unfold cv; cbn; auto]).
        apply (in_boundary G TR F H). unfold inE. cbn [fst snd]. rewrite (proj1 (into_first S)), Ei. unfold boundaryEdge. lia.
      + assert (In (ce i, secondCorner (cs i)) l) by (apply (fan_in TR _ F); split; [split; assumption|unfold cv; cbn; auto]).
        apply (out_boundary G TR F H). unfold outE. cbn [fst snd]. rewrite (proj2 (into_first S)), Ei. unfold boundaryEdge. lia.
    - intro O. pose proof F as (NN & _ & _ & _ & L5). assert (LP : (0 < length l)%nat) by (destruct l; [contradiction|cbn; lia]).
      destruct (nth_error l 0) as [x|] eqn:X0; [|apply nth_error_None in X0; lia].
      destruct (nth_error l (length l - 1)) as [y|] eqn:Y; [|apply nth_error_None in Y; lia].
      specialize (L5 x y eq_refl eq_refl). rewrite O in L5. destruct L5 as ((i & S1 & B) & _).
      assert (Ix : In x l) by (eapply nth_error_In; exact X0). pose proof (proj1 (fan_in TR x F) Ix) as ((I & K) & V). apply (side_edg TR) in S1 as (S1 & E); [|exact I].
      assert (R' : 0 <= i < g_n1 g) by (rewrite E; now apply (edg_range G TR)). exists i. split; [now apply ORD|]. unfold boundaryEdge in B. rewrite B. change (Z.of_nat 1 =? 1) with true. cbn [andb].
      destruct (CH i R') as (Ie & S & Ei & _). assert (T1 : In (s_index (ce i), cs i) (sidesOn g i)) by (apply (in_sides TR); eauto). assert (T2 : In (s_index (fst x), sideOutOf (snd x)) (sidesOn g i)) by (rewrite E; apply (in_sides TR); eauto).
      pose proof (one_side B T1 T2) as Q. injection Q as Q1 Q2. assert (Q3 : ce i = fst x) by now apply (@indices_inj _ _ _ (gridOk_indices G)). rewrite Q2, Q3. destruct (sides_lt K) as (_ & _ & _ & _ & ->).
      apply orb_true_intro. right. apply Z.eqb_eq. symmetry. exact V. }
  (* dofs *)
  set (marks := map (fun x => if x =? 1 then -1 else 0) cnt). destruct (numberZeros marks 0) as [dofs count] eqn:EN.
  destruct (@numberZeros_spec marks 0 0 dofs count) as (LD & C2 & P2); [lia|exact EN|].
  assert (MK : forall i, 0 <= i < g_n1 g -> zget marks i = Some (if Z.of_nat (length (sidesOn g i)) =? 1 then -1 else 0)) by (intros i R; unfold marks; rewrite zget_map; destruct (HL i R) as (-> & _); reflexivity).
  set (edges := zerosFrom 0 marks) in *.
  assert (IE : forall i, In i edges <-> 0 <= i < g_n1 g /\ length (sidesOn g i) = 2%nat).
  { intro i. unfold edges. rewrite in_zerosFrom, Z.sub_0_r. split.
    - intros (R0 & E). pose proof (zget_lt _ _ E) as R. unfold marks in R. rewrite map_length in R. assert (R' : 0 <= i < g_n1 g) by lia. split; [exact R'|]. rewrite (MK i R') in E.
      destruct (sides_cases R') as [Q|Q]; [rewrite Q in E; discriminate|exact Q].
    - intros (R & H). split; [lia|]. rewrite (MK i R), H. reflexivity. }
  exists (BcTables nx e2f f2e dofs count ns onB f0 f1 v0 v1), edges. split.
  { unfold bcTables. rewrite EC, EF, EL, ENS. cbn [obind]. rewrite EF0, EF1, EV0, EV1. cbn [obind]. unfold boundaryVertices. rewrite EB. cbn [obind]. rewrite E1, E2, E3, E4. cbn [obind]. rewrite E5. cbn [obind]. rewrite numberDofs_zeros. fold marks. rewrite EN. reflexivity. }
  unfold tablesOk. cbn [t_next t_e2f t_f2e t_dofs t_count t_n t_onB t_face0 t_face1 t_v0 t_v1].
  split; [apply zerosFrom_sorted|]. split; [exact IE|]. split; [lia|]. split.
  { intros i R. pose proof (MK i R) as E. unfold zget in E. destruct (Z.ltb_spec i 0); [lia|]. destruct (P2 _ _ E) as (A & B). unfold zget. destruct (Z.ltb_spec i 0); [lia|].
    destruct (sides_cases R) as [Q|Q]; rewrite Q in *; cbn [Z.of_nat Z.eqb Pos.of_succ_nat Pos.succ Pos.eqb] in *.
    - exists (-1). split; [apply A; discriminate|]. left. split; [reflexivity|]. rewrite IE. lia.
    - destruct (B eq_refl) as (d & D1 & D2 & D3). exists d. split; [exact D1|]. right. split; [lia|]. rewrite Z.sub_0_r in D3. rewrite D3. f_equal. lia. }
  split; [exact N1|]. split; [exact N2|]. split; [exact N3|]. split; [exact N4|]. split; [intros v o l R F; split; [eapply HNS; eassumption|eapply HONB; eassumption]|].
  intros i I. apply IE in I as (R & L2). pose proof (CH i R) as LS. set (A := ce i) in *. set (j := cs i) in *. pose proof LS as (IA & J & EJ & MA).
  assert (SA : In (s_index A, j) (sidesOn g i)) by (apply (in_sides TR); eauto).
  assert (exists y, In y (sidesOn g i) /\ y <> (s_index A, j)) as ((yb, j') & IY & NY).
  { pose proof (sides_NoDup G i) as NS. destruct (sidesOn g i) as [|a [|b [|c l]]]; try discriminate. destruct SA as [Q|[Q|[]]].
    - exists b. split; [right; now left|]. intro. inversion NS as [|? ? NI _]. apply NI. left. congruence.
    - exists a. split; [now left|]. intro. inversion NS as [|? ? NI _]. apply NI. left. congruence. }
  pose proof IY as IY'. apply (in_sides TR) in IY' as (B & IB & Eb & J' & EJ'). exists A, j, B, j'. unfold edgeInfo. cbn [t_face0 t_face1 t_v0 t_v1].
  assert (AB : A <> B) by (intro Q; apply NY; subst yb; rewrite <- Q in *; f_equal; symmetry; eapply (edg_inj TR IA); auto; congruence).
  assert (IAB : s_index A <> s_index B) by (intro Q; apply AB; now apply (@indices_inj _ _ _ (gridOk_indices G))).
  split; [exact LS|]. split; [exact IB|]. split; [exact J'|]. split; [exact EJ'|]. split; [exact AB|]. split; [now apply TF0|]. split; [now apply TV0|]. split; [now apply TV1|].
  destruct (LOW A j IA J) as (l & L). assert (Q : l = s_index A) by (apply (LU i A j l R LS); congruence). subst l. rewrite <- EJ'.
  apply (HF1 B j' (s_index A)); auto.
  - rewrite EJ', <- EJ. exact L.
  - destruct (Z.eqb_spec (s_index A) (s_index B)); [contradiction|reflexivity].
  - intros e' k' I' K' E' Q. apply eqb_prop in Q. apply Z.eqb_neq in Q. assert (SE : In (s_index e', k') (sidesOn g i)) by (apply (in_sides TR); exists e'; repeat split; auto; congruence).
    assert (SB : In (s_index B, j') (sidesOn g i)) by (apply (in_sides TR); eauto).
    destruct (@three_sides g i (s_index A, j) (s_index B, j') (s_index e', k')) as [X|X]; auto; [lia|congruence|injection X as X _; congruence|].
    injection X as X ->. split; [now apply (@indices_inj _ _ _ (gridOk_indices G))|reflexivity].
Qed.
End Tables.
