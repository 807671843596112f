(** Continuous spaces: the dof map. *)
From Coq Require Import Permutation Sorted.
From Verif Require Import Base SegModel SegSpec SegProofs AsmModel AsmSpec SpaceModel SpaceSpec SpaceProofs SpaceP1Proofs RangeProofs PolyModel PolySpec PolyProofs1 PolyProofs2 PolyProofs3 PolyProofs4.
Set Implicit Arguments.
Unset Strict Implicit.
Local Open Scope Z_scope.

(** every used entity got w numbers, consecutively, out of [lo, hi) *)
Definition numbered (n : Z) (used : Z -> bool) (w lo hi : Z) (tab : list Z) : Prop :=
  length tab = Z.to_nat n /\ lo <= hi /\ (forall i, 0 <= i < n -> used i = false -> zgetd tab i = -1) /\
  (0 < w -> (forall i, 0 <= i < n -> used i = true -> lo <= zgetd tab i /\ zgetd tab i + w <= hi) /\
    (forall i j, 0 <= i < n -> 0 <= j < n -> used i = true -> used j = true -> i <> j -> zgetd tab i + w <= zgetd tab j \/ zgetd tab j + w <= zgetd tab i)) /\
  (forall x, lo <= x < hi -> 0 < w /\ exists i, 0 <= i < n /\ used i = true /\ zgetd tab i <= x < zgetd tab i + w).
Lemma zgetd_nth (tab : list Z) i d : 0 <= i -> nth_error tab (Z.to_nat i) = Some d -> zgetd tab i = d.
Proof. intros H E. unfold zgetd, zget. destruct (Z.ltb_spec i 0); [lia|]. now rewrite E. Qed.
Lemma startDofs_numbered n (used : Z -> bool) w l c l' c' : 0 <= w -> length l = Z.to_nat n -> (forall i, 0 <= i < n -> zget l i = Some (if used i then w else -1)) ->
  startDofs l c = (l', c') -> numbered n used w c c' l'.
Proof.
  intros W L H E. destruct (startDofs_spec _ _ E) as (A1 & A2 & A3 & A4 & A5).
  assert (HN : forall i, 0 <= i < n -> nth_error l (Z.to_nat i) = Some (if used i then w else -1)).
  { intros i R. rewrite <- H by exact R. unfold zget. destruct (Z.ltb_spec i 0); [lia|reflexivity]. }
  split; [congruence|]. split; [exact A2|]. split; [|split; [intros W'; split|]].
  - intros i R U. destruct (A3 _ _ (HN i R)) as (d & D1 & D2 & _). rewrite U in D2. rewrite (zgetd_nth (tab := l') (d := d)) by (auto; lia). apply D2. lia.
  - intros i R U. destruct (A3 _ _ (HN i R)) as (d & D1 & _ & D2). rewrite U in D2. rewrite (zgetd_nth (tab := l') (d := d)) by (auto; lia). now apply D2.
  - assert (HL : forall i j, 0 <= i < n -> 0 <= j < n -> used i = true -> used j = true -> i < j -> zgetd l' i + w <= zgetd l' j).
    { intros i j Ri Rj Ui Uj N. pose proof (HN i Ri) as Ni. pose proof (HN j Rj) as Nj. rewrite Ui in Ni. rewrite Uj in Nj.
      destruct (A3 _ _ Ni) as (d & D1 & _). destruct (A3 _ _ Nj) as (d' & D1' & _).
      rewrite (zgetd_nth (tab := l') (d := d)) by (auto; lia). rewrite (zgetd_nth (tab := l') (d := d')) by (auto; lia).
      apply (A4 (Z.to_nat i) (Z.to_nat j) w d w d'); auto. lia. }
    intros i j Ri Rj Ui Uj N. destruct (Z_lt_le_dec i j); [left; now apply HL|right; apply HL; auto; lia].
  - intros x X. destruct (A5 x X) as (i & m & d & D1 & D2 & D3 & D4).
    assert (R : 0 <= Z.of_nat i < n) by (assert (i < length l)%nat by (apply nth_error_Some; congruence); lia).
    pose proof (HN _ R) as Q. rewrite Nat2Z.id, D1 in Q. injection Q as Q. destruct (used (Z.of_nat i)) eqn:UU; [|lia]. split; [lia|]. exists (Z.of_nat i). split; [exact R|]. split; [exact UU|].
    rewrite (zgetd_nth (tab := l') (d := d)) by (rewrite ?Nat2Z.id; auto; lia). lia.
Qed.

Lemma posIn_of_nth l : NoDup l -> forall i n, nth_error l i = Some n -> posIn n l = i.
Proof.
  intros ND i n E. apply (proj1 (NoDup_nth_error l) ND).
  - apply nth_error_Some. rewrite posIn_nth by (eapply nth_error_In; eauto). discriminate.
  - rewrite posIn_nth by (eapply nth_error_In; eauto). now rewrite E.
Qed.

Section TableP.
Variables (g : sgrid) (s : segment) (strict : bool) (p : nat) (vd ed bd : list Z) (c1 c2 c3 : Z).
Hypotheses (G : gridOk g) (T : triangulation g) (pos : (1 <= p)%nat).
Let B := (Z.of_nat p - 1) * (Z.of_nat p - 2) / 2.
Hypotheses (NV : numbered (g_n2 g) (usedB g s strict) 1 0 c1 vd)
  (NE : numbered (g_n1 g) (usedEB g s strict) (Z.of_nat p - 1) c1 c2 ed)
  (NB : numbered (g_n0 g) (inSeg s 0) B c2 c3 bd).
Definition tb := tabP p (contB s strict) vd ed bd.

Lemma shaped_of e : In e (g_elts g) -> shaped e.
Proof. intros I. destruct T as (T1 & _). destruct (T1 e I) as (a & b & c & i & j & k & V & _ & F). exists a, b, c, i, j, k. auto. Qed.
Lemma distinct_of e : In e (g_elts g) -> distinct e.
Proof. intros I. destruct T as (T1 & _). destruct (T1 e I) as (a & b & c & i & j & k & V & N & F). exists a, b, c. auto. Qed.
Lemma vert_in e k : In e (g_elts g) -> (k < 3)%nat -> hasVertex e (vert e k).
Proof. intros I L. destruct (distinct_of I) as (a & b & c & V & _). unfold hasVertex, vert. rewrite V. apply nth_In. cbn. lia. Qed.
Lemma facet_in e k : In e (g_elts g) -> (k < 3)%nat -> hasFacet e (facet e k) /\ In (facet e k, [endA e k; endB e k]) (s_facets e).
Proof.
  intros I L. destruct (shaped_of I) as (a & b & c & i & j & q & V & F). unfold hasFacet, facet, endA, endB, vert. rewrite V, F.
  destruct k as [|[|[|k]]]; [| | |lia]; cbn; auto.
Qed.
Lemma vert_range e k : In e (g_elts g) -> (k < 3)%nat -> 0 <= vert e k < g_n2 g.
Proof. intros I L. destruct G as (_ & _ & _ & G4 & _). apply (G4 e); auto. now apply vert_in. Qed.
Lemma facet_range e k : In e (g_elts g) -> (k < 3)%nat -> 0 <= facet e k < g_n1 g.
Proof. intros I L. destruct G as (_ & _ & G3 & _). apply (G3 e); auto. now apply facet_in. Qed.
Lemma index_range e : In e (g_elts g) -> 0 <= s_index e < g_n0 g.
Proof. intros I. destruct G as (_ & G2 & _). now apply G2. Qed.
Lemma offset_range e k l : (1 <= l <= p - 1)%nat -> 0 <= offset p e k l <= Z.of_nat p - 2.
Proof. intros L. unfold offset. destruct (_ <? _); lia. Qed.
Lemma inner_count n : innerN p n -> 0 < B /\ Z.of_nat (posIn n (innerNodes p)) < B.
Proof.
  intros N. assert (I : In n (innerNodes p)) by (apply in_inner; [exact pos|exact N]). pose proof (inner_length pos) as L. fold B in L.
  assert (posIn n (innerNodes p) < length (innerNodes p))%nat by (apply nth_error_Some; rewrite posIn_nth by exact I; discriminate). lia.
Qed.

(** the value of the table *)
Lemma tb_corner e k : In e (g_elts g) -> (k < 3)%nat ->
  tb e (cornerNode p k) = (if contB s strict e && inSeg s 2 (vert e k) then Some (zgetd vd (vert e k)) else None) /\
  (contB s strict e = true -> inSeg s 2 (vert e k) = true -> usedB g s strict (vert e k) = true).
Proof.
  intros I L. pose proof (vert_range I L) as R. destruct NV as (_ & _ & N1 & N2 & _). destruct N2 as (N2 & _); [lia|].
  unfold tb, tabP. rewrite classify_corner by auto. destruct (contB s strict e) eqn:C; cbn [andb]; [|split; [reflexivity|discriminate]].
  rewrite (@used_here g s strict e _ I (vert_in I L) C). split; [|auto].
  pose proof (@used_here g s strict e _ I (vert_in I L) C) as U. destruct (inSeg s 2 (vert e k)).
  - destruct (N2 _ R U). cbv zeta. destruct (Z.leb_spec 0 (zgetd vd (vert e k))); [reflexivity|lia].
  - rewrite (N1 _ R U). reflexivity.
Qed.
Lemma tb_side e k l : In e (g_elts g) -> (k < 3)%nat -> (1 <= l <= p - 1)%nat ->
  tb e (sideNode p k l) = (if contB s strict e && inSeg s 1 (facet e k) then Some (zgetd ed (facet e k) + offset p e k l) else None) /\
  (contB s strict e = true -> inSeg s 1 (facet e k) = true -> usedEB g s strict (facet e k) = true).
Proof.
  intros I L W. pose proof (facet_range I L) as R. destruct NE as (_ & _ & N1 & N2 & _). destruct N2 as (N2 & _); [lia|].
  unfold tb, tabP. rewrite classify_side by auto. cbv zeta. destruct (contB s strict e) eqn:C; [|split; [now rewrite andb_false_r|discriminate]].
  rewrite andb_true_r, andb_true_l. pose proof (@usedE_here g s strict e _ I (proj1 (facet_in I L)) C) as U. rewrite U. split; [|auto].
  assert (C0 : 0 <= c1) by apply NV.
  destruct (inSeg s 1 (facet e k)).
  - destruct (N2 _ R U). destruct (Z.leb_spec 0 (zgetd ed (facet e k))); [reflexivity|lia].
  - rewrite (N1 _ R U). reflexivity.
Qed.
Lemma tb_inner e n : In e (g_elts g) -> innerN p n ->
  tb e n = if inSeg s 0 (s_index e) then Some (zgetd bd (s_index e) + Z.of_nat (posIn n (innerNodes p))) else None.
Proof.
  intros I N. pose proof (index_range I) as R. destruct (inner_count N) as (B0 & BP). destruct NB as (_ & _ & N1 & N2 & _). destruct (N2 B0) as (N3 & _).
  unfold tb, tabP. rewrite classify_inner by (auto; apply in_inner; auto). cbv zeta.
  assert (C0 : 0 <= c1) by apply NV. assert (C1 : c1 <= c2) by apply NE.
  destruct (inSeg s 0 (s_index e)) eqn:Q.
  - destruct (N3 _ R Q). destruct (Z.leb_spec 0 (zgetd bd (s_index e))); [reflexivity|lia].
  - rewrite (N1 _ R Q). reflexivity.
Qed.

(** what is known about an active dof *)
Lemma tb_some e n d : In e (g_elts g) -> isNode p n -> tb e n = Some d ->
  match classify p n with
  | Corner k => (k < 3)%nat /\ n = cornerNode p k /\ contB s strict e = true /\ inSeg s 2 (vert e k) = true /\ usedB g s strict (vert e k) = true /\ d = zgetd vd (vert e k) /\ 0 <= d < c1
  | Side k l => (k < 3)%nat /\ (1 <= l <= p - 1)%nat /\ n = sideNode p k l /\ contB s strict e = true /\ inSeg s 1 (facet e k) = true /\ usedEB g s strict (facet e k) = true /\ d = zgetd ed (facet e k) + offset p e k l /\ c1 <= d < c2
  | Inner => innerN p n /\ inSeg s 0 (s_index e) = true /\ d = zgetd bd (s_index e) + Z.of_nat (posIn n (innerNodes p)) /\ c2 <= d < c3
  end.
Proof.
  intros I N H. pose proof (classify_spec pos N) as C. destruct (classify p n) as [k|k l|].
  - destruct C as (L & ->). destruct (tb_corner I L) as (E & U). rewrite E in H. destruct (contB s strict e && inSeg s 2 (vert e k)) eqn:Q; [|discriminate].
    apply andb_true_iff in Q as (Q1 & Q2). injection H as <-. destruct NV as (_ & _ & _ & N2 & _). destruct N2 as (N2 & _); [lia|].
    specialize (N2 _ (vert_range I L) (U Q1 Q2)). repeat split; auto; lia.
  - destruct C as (L & W & ->). destruct (tb_side I L W) as (E & U). rewrite E in H. destruct (contB s strict e && inSeg s 1 (facet e k)) eqn:Q; [|discriminate].
    apply andb_true_iff in Q as (Q1 & Q2). injection H as <-. destruct NE as (_ & _ & _ & N2 & _). destruct N2 as (N2 & _); [lia|].
    specialize (N2 _ (facet_range I L) (U Q1 Q2)). pose proof (offset_range e k W). split; [exact L|]. split; [exact W|]. repeat split; auto; lia.
  - fold (innerN p n) in C. rewrite (tb_inner I C) in H. destruct (inSeg s 0 (s_index e)) eqn:Q; [|discriminate]. injection H as <-.
    destruct (inner_count C) as (B0 & BP). destruct NB as (_ & _ & _ & N2 & _). destruct (N2 B0) as (N3 & _). specialize (N3 _ (index_range I) Q).
    split; [exact C|]. split; [reflexivity|]. split; [reflexivity|]. lia.
Qed.
Lemma tb_range e n d : In e (g_elts g) -> isNode p n -> tb e n = Some d -> 0 <= d < c3.
Proof.
  intros I N H. pose proof (tb_some I N H) as S. assert (0 <= c1) by apply NV. assert (c1 <= c2) by apply NE. assert (c2 <= c3) by apply NB.
  destruct (classify p n); intuition lia.
Qed.
Lemma tb_active e n : In e (g_elts g) -> isNode p n ->
  ((exists d, tb e n = Some d) <-> nodeOn s p e n /\ (strict = true -> holds s 0 (s_index e))).
Proof.
  intros I N. assert (CB : contB s strict e = true <-> (strict = true -> holds s 0 (s_index e))).
  { unfold contB. rewrite <- inSegP by lia. destruct strict; cbn; intuition. }
  rewrite nodeOn_classify, <- CB. split.
  - intros (d & H). pose proof (tb_some I N H) as S. destruct (classify p n) as [k|k l|].
    + rewrite <- inSegP by lia. tauto.
    + rewrite <- inSegP by lia. tauto.
    + rewrite <- inSegP by lia. unfold contB. destruct S as (_ & -> & _). now rewrite orb_true_r.
  - intros (H & C). pose proof (classify_spec pos N) as S. destruct (classify p n) as [k|k l|].
    + destruct S as (L & ->). rewrite <- inSegP in H by lia. destruct (tb_corner I L) as (E & _). rewrite C, H in E. cbn [andb] in E. rewrite E. eauto.
    + destruct S as (L & W & ->). rewrite <- inSegP in H by lia. destruct (tb_side I L W) as (E & _). rewrite C, H in E. cbn [andb] in E. rewrite E. eauto.
    + rewrite <- inSegP in H by lia. rewrite (tb_inner I S). rewrite H. eauto.
Qed.
Lemma tb_same e n d e' n' d' : In e (g_elts g) -> In e' (g_elts g) -> isNode p n -> isNode p n' -> tb e n = Some d -> tb e' n' = Some d' ->
  (d = d' <-> samePoint p e n e' n').
Proof.
  intros I I' N N' H H'. pose proof (tb_some I N H) as S. pose proof (tb_some I' N' H') as S'.
  pose proof (distinct_of I) as D. pose proof (distinct_of I') as D'. assert (c1 <= c2) by apply NE. assert (c2 <= c3) by apply NB.
  destruct (classify p n) as [k|k l|], (classify p n') as [k'|k' l'|].
  - destruct S as (L & -> & C & A & U & -> & R), S' as (L' & -> & C' & A' & U' & -> & R'). rewrite same_cc by auto.
    destruct NV as (_ & _ & _ & N2 & _). destruct N2 as (_ & N2); [lia|]. split; [|now intros ->].
    intros E. destruct (Z.eq_dec (vert e k) (vert e' k')) as [|NQ]; [assumption|]. specialize (N2 _ _ (vert_range I L) (vert_range I' L') U U' NQ). lia.
  - split; [intro; exfalso; intuition lia|]. intros SP. exfalso. destruct S as (L & -> & _), S' as (L' & W' & -> & _). apply (@same_cs p pos e k e' k' l'); auto.
  - split; [intro; exfalso; intuition lia|]. intros SP. exfalso. destruct S as (L & -> & _), S' as (W' & _). apply (@same_ci p pos e k e' n'); auto.
  - split; [intro; exfalso; intuition lia|]. intros SP. exfalso. apply samePoint_sym in SP. destruct S as (L & W & -> & _), S' as (L' & -> & _). apply (@same_cs p pos e' k' e k l); auto.
  - destruct S as (L & W & -> & C & A & U & E & R), S' as (L' & W' & -> & C' & A' & U' & E' & R'). rewrite same_ss by auto.
    pose proof (offset_range e k W) as O. pose proof (offset_range e' k' W') as O'.
    pose proof (ends_ne pos D L) as NQ. pose proof (ends_ne pos D' L') as NQ'.
    destruct NE as (_ & _ & _ & N2 & _). destruct N2 as (_ & N2); [lia|]. specialize (N2 _ _ (facet_range I L) (facet_range I' L') U U').
    destruct T as (_ & T2 & _). specialize (T2 _ _ _ _ I I' (proj2 (facet_in I L)) (proj2 (facet_in I' L'))). cbn [fst snd] in T2.
    assert (OO : forall e k l, offset p e k l = if endA e k <? endB e k then Z.of_nat l - 1 else Z.of_nat p - 1 - Z.of_nat l) by reflexivity.
    rewrite OO in *. split.
    + intros Q. destruct (Z.eq_dec (facet e k) (facet e' k')) as [F|NF]; [|specialize (N2 NF); exfalso; revert N2; lia].
      pose proof (proj1 T2 F) as V. pose proof (proj1 (V (endA e k)) (or_introl eq_refl)) as VA. pose proof (proj1 (V (endB e k)) (or_intror (or_introl eq_refl))) as VB.
      rewrite F in E. cbn in VA, VB. clear V T2 N2.
      destruct (Z.ltb_spec (endA e k) (endB e k)), (Z.ltb_spec (endA e' k') (endB e' k')); lia.
    + intros Q. assert (F : facet e k = facet e' k').
      { apply T2. intros v. cbn. destruct Q as [(-> & -> & _)|(-> & -> & _)]; tauto. }
      rewrite F in E. clear T2 N2. destruct (Z.ltb_spec (endA e k) (endB e k)), (Z.ltb_spec (endA e' k') (endB e' k')); lia.
  - split; [intro; exfalso; intuition lia|]. intros SP. exfalso. destruct S as (L & W & -> & _), S' as (W' & _). apply (@same_si p pos e k l e' n'); auto.
  - split; [intro; exfalso; intuition lia|]. intros SP. exfalso. apply samePoint_sym in SP. destruct S as (L & _), S' as (L' & -> & _). apply (@same_ci p pos e' k' e n); auto.
  - split; [intro; exfalso; intuition lia|]. intros SP. exfalso. apply samePoint_sym in SP. destruct S as (L & _), S' as (L' & W' & -> & _). apply (@same_si p pos e' k' l' e n); auto.
  - destruct S as (W & A & E & R), S' as (W' & A' & E' & R'). destruct (inner_count W) as (B0 & BP). destruct (inner_count W') as (_ & BP').
    destruct NB as (_ & _ & _ & N2 & _). destruct (N2 B0) as (_ & N3). specialize (N3 _ _ (index_range I) (index_range I') A A'). split.
    + intros Q. destruct (Z.eq_dec (s_index e) (s_index e')) as [F|NF]; [|specialize (N3 NF); exfalso; revert N3; lia].
      assert (e = e') by (eapply indices_inj; eauto using gridOk_indices). subst e'.
      assert (P : posIn n (innerNodes p) = posIn n' (innerNodes p)) by lia.
      assert (n = n'); [|subst; now intros v].
      assert (X : Some n = Some n'); [|now injection X]. rewrite <- (posIn_nth (innerNodes p) n), <- (posIn_nth (innerNodes p) n'), P by (now apply in_inner). reflexivity.
    + intros SP. destruct T as (_ & _ & T3). assert (e = e') by (apply T3; auto; exact (@same_ii p pos e n e' n' D D' W W' SP)). subst e'.
      assert (n = n') by (eapply same_nn; eauto). subst n'. congruence.
Qed.
Lemma tb_onto x : (strict = false -> noIsolatedVertex g) -> (strict = false -> (2 <= p)%nat -> noIsolatedEdge g) -> 0 <= x < c3 -> exists e n, In e (g_elts g) /\ isNode p n /\ tb e n = Some x.
Proof.
  intros IV IE R. destruct (Z_lt_le_dec x c1) as [L1|L1]; [|destruct (Z_lt_le_dec x c2) as [L2|L2]].
  - destruct NV as (_ & _ & _ & _ & N2). destruct (N2 x) as (_ & v & Rv & U & X); [lia|].
    assert (Q : exists e, In e (g_elts g) /\ hasVertex e v /\ contB s strict e = true).
    { pose proof U as U'. unfold usedB in U. apply andb_true_iff in U as (_ & U). apply orb_true_iff in U as [U|U].
      - apply negb_true_iff in U. destruct (IV U v Rv) as (e & I & V). exists e. unfold contB. rewrite U. auto.
      - apply existsb_exists in U as (e & I & U). apply andb_true_iff in U as (U1 & U2). exists e. unfold contB. rewrite U1, orb_true_r. split; [exact I|]. split; [now apply smem_In|reflexivity]. }
    destruct Q as (e & I & V & C). assert (K : exists k, (k < 3)%nat /\ vert e k = v).
    { destruct (distinct_of I) as (a & b & c & V3 & _). unfold hasVertex in V. unfold vert. rewrite V3 in V |- *. destruct V as [<-|[<-|[<-|[]]]]; [exists 0%nat|exists 1%nat|exists 2%nat]; auto. }
    destruct K as (k & L & <-). exists e, (cornerNode p k). split; [exact I|]. split; [now apply corner_node|]. destruct (tb_corner I L) as (E & _). rewrite E, C.
    rewrite <- (@used_here g s strict e _ I V C), U. cbn [andb]. f_equal. lia.
  - destruct NE as (_ & _ & _ & _ & N2). destruct (N2 x) as (W & v & Rv & U & X); [lia|].
    assert (Q : exists e, In e (g_elts g) /\ hasFacet e v /\ contB s strict e = true).
    { pose proof U as U'. unfold usedEB in U. apply andb_true_iff in U as (_ & U). apply orb_true_iff in U as [U|U].
      - apply negb_true_iff in U. destruct (IE U) with (i := v) as (e & I & V); [lia|exact Rv|]. exists e. unfold contB. rewrite U. auto.
      - apply existsb_exists in U as (e & I & U). apply andb_true_iff in U as (U1 & U2). exists e. unfold contB. rewrite U1, orb_true_r. split; [exact I|]. split; [now apply smem_In|reflexivity]. }
    destruct Q as (e & I & V & C). assert (K : exists k, (k < 3)%nat /\ facet e k = v).
    { destruct (shaped_of I) as (a & b & c & i & j & q & _ & F). unfold hasFacet in V. unfold facet. rewrite F in V |- *. destruct V as [<-|[<-|[<-|[]]]]; [exists 0%nat|exists 1%nat|exists 2%nat]; auto. }
    destruct K as (k & L & <-).
    assert (LL : exists l, (1 <= l <= p - 1)%nat /\ offset p e k l = x - zgetd ed (facet e k)).
    { unfold offset. destruct (_ <? _).
      - exists (Z.to_nat (x - zgetd ed (facet e k) + 1)). lia.
      - exists (Z.to_nat (Z.of_nat p - 1 - (x - zgetd ed (facet e k)))). lia. }
    destruct LL as (l & Wl & O). exists e, (sideNode p k l). split; [exact I|]. split; [now apply side_node|]. destruct (tb_side I L Wl) as (E & _). rewrite E, C.
    rewrite <- (@usedE_here g s strict e _ I V C), U. cbn [andb]. f_equal. lia.
  - destruct NB as (_ & _ & _ & _ & N2). destruct (N2 x) as (W & v & Rv & U & X); [lia|].
    destruct (@index_covered _ _ G Rv) as (e & I & <-).
    destruct (nth_error (innerNodes p) (Z.to_nat (x - zgetd bd (s_index e)))) as [n|] eqn:E.
    + assert (IN : In n (innerNodes p)) by (eapply nth_error_In; eauto). pose proof (posIn_of_nth (inner_NoDup p) E) as PI.
      assert (N : innerN p n) by (apply in_inner; auto). exists e, n. split; [exact I|]. split; [destruct N as (_ & _ & ?); unfold isNode; lia|].
      rewrite (tb_inner I N), U, PI. f_equal. lia.
    + apply nth_error_None in E. pose proof (inner_length pos) as IL. fold B in IL. lia.
Qed.
End TableP.
