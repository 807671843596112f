From Coq Require Import Reals Lra Sorted.
From Verif Require Import Base ComplexR SegModel SegSpec SegProofs AsmModel SpaceModel SpaceSpec SpaceProofs SpaceP1Proofs SpaceRwgProofs PolySpec PolyProofs6 VecModel VecSpec VecProofs3 VecProofs4
  BaryModel BarySpec BaryProofs BaryProofs2 BaryProofs3 BaryProofs4 BcModel BcSpec BcProofs BcProofs2 BcProofs3 BcProofs4 BcProofs5 BcProofs6 BcProofs7 BcProofs8 BcProofs9 BcProofs10 BcProofs11.
Set Implicit Arguments.
Unset Strict Implicit.
Local Open Scope Z_scope.

Section Edge.
Variables (g fg : sgrid) (son : Z -> nat -> Z) (order : list Z).
Hypotheses (G : gridOk g) (TR : triangulation g) (RF : refinement g fg son) (OS : orientedSurface g) (NE : noIsolatedEdge g) (IM : g_n0 fg <= INT_MAX).
Notation corner := (corner g).
Notation face := (face son).
Notation fe := (fe fg son).
Notation fT := (fT fg son).

(** what one walk contributes *)
Definition walkFluxes (i : Z) (o : bool) (l : list (selt * nat)) (ph : Z -> nat -> R) : Prop :=
    (forall f t, (forall x odd, In x l -> f <> face x odd) -> ph f t = 0%R) /\
    (forall x, In x l -> (ph (face x true) 1%nat + ph (face x false) 0%nat = 0)%R) /\
    (forall x y, cyc l x y -> inE x = outE y -> (ph (face x false) 1%nat + ph (face y true) 0%nat = 0)%R) /\
    (forall x odd, In x l -> (ph (face x odd) 0%nat + ph (face x odd) 1%nat + ph (face x odd) 2%nat = if o then 0 else 1 / (2 * INR (length l)))%R) /\
    (forall x odd, In x l -> ph (face x odd) 2%nat = (if (if odd then outE x else inE x) =? i then 1 / 2 else 0)%R) /\
    (o = false -> forall x, In x l -> (inE x = i -> ph (face x false) 1%nat = 0%R) /\ (outE x = i -> ph (face x true) 0%nat = 0%R)) /\
    (forall x, In x l -> (boundaryEdge g (outE x) -> ph (face x true) 0%nat = (- ((INR (length l) - 1) / INR (length l)))%R) /\
                         (boundaryEdge g (inE x) -> ph (face x false) 1%nat = (- (1 / INR (length l)))%R)).
Lemma one_walk t edges v o l a y0 : tablesOk g son t edges -> fanAt g v o l -> corner a -> corner y0 -> cv a = v -> cv y0 = v -> inE a = outE y0 ->
  exists (E : Z -> R -> list entry) (ph : Z -> nat -> R),
    (forall check d w fuel st st', (length (g_elts fg) <= fuel)%nat -> ofold addFull (E d w) st = Some st' ->
       walkEnd check (t_next t) (t_e2f t) (t_f2e t) d (Z.of_nat (length l)) o (face a false) w fuel st = Done st') /\
    (forall d w x, In x (E d w) -> en_dof x = d /\ exists y odd, corner y /\ en_face x = face y odd) /\
    (forall d w f k, phi (E d w) f k = (w * ph f k)%R) /\ walkFluxes (inE a) o l ph.
Proof.
  intros (_ & _ & _ & _ & N1 & N2 & N3 & N4 & _) F Ca Cy Va Vy E. pose proof (turn_cyc G TR OS F Ca Cy Va Vy E) as CY.
  destruct (fan_walk G TR RF N1 N2 N3 N4 F CY E) as (EE & ph & H1 & H2 & H3 & H4 & H5 & H6 & H7 & H8 & H9 & H10). exists EE, ph.
  assert (LL : (2 * length l <= length (g_elts fg))%nat). { destruct (fan_length G TR F) as (X & _). destruct RF as (_ & _ & _ & Q & _). rewrite Q. lia. }
  split; [intros; apply H1; [lia|assumption]|]. split; [|split; [exact H3|]].
  { intros d w x I. destruct (H2 d w x I) as (A & y & odd & Iy & Q). split; [exact A|]. exists y, odd. split; [apply (fan_in TR y F); exact Iy|exact Q]. }
  split; [exact H4|]. split; [exact H5|]. split; [exact H6|]. split; [exact H7|]. split; [|split].
  - intros x odd I. pose proof (proj1 (fan_in TR x F) I) as (Cx & Vx). destruct (H8 x odd I) as [([Q|Q] & ->)|(Q1 & Q2 & ->)].
    + injection Q as -> ->. now rewrite Z.eqb_refl.
    + injection Q as -> ->. now rewrite E, Z.eqb_refl.
    + destruct odd; destruct (Z.eqb_spec (if true then outE x else inE x) (inE a)) as [Z|Z], (Z.eqb_spec (if false then outE x else inE x) (inE a)) as [Z'|Z']; try reflexivity; exfalso.
      all: try (apply Q2; f_equal; apply (out_unique G TR OS); auto; congruence). all: try (apply Q1; f_equal; apply (in_unique G TR OS); auto; congruence).
  - intros O x I. pose proof (proj1 (fan_in TR x F) I) as (Cx & Vx). destruct (H9 O) as (A & B). split; intro Q.
    + assert (x = a) by (apply (in_unique G TR OS); auto; congruence). now subst x.
    + assert (x = y0) by (apply (out_unique G TR OS); auto; congruence). now subst x.
  - intros x I. assert (LP : (0 < length l)%nat) by (destruct l; [destruct I|cbn; lia]). destruct (nth_error l 0) as [h|] eqn:X0; [|apply nth_error_None in X0; lia]. destruct (nth_error l (length l - 1)) as [z|] eqn:Xz; [|apply nth_error_None in Xz; lia].
    split; intro B.
    + destruct (out_boundary G TR F I B) as (O & Q). assert (h = x) by congruence. subst h. apply (H10 O x z eq_refl eq_refl).
    + destruct (in_boundary G TR F I B) as (O & Q). assert (z = x) by congruence. subst z. apply (H10 O h x eq_refl eq_refl).
Qed.
Lemma edge_lemma t edges i d : tablesOk g son t edges -> In i edges -> zget (t_dofs t) i = Some d -> d <> -1 ->
  exists E A j v0 v1, lowSide g i A j /\ sideRuns A j v1 v0 /\
    (forall check fuel st st', (length (g_elts fg) <= fuel)%nat -> ofold addFull E st = Some st' -> edgeStep check fuel t st i = Done st') /\
    (forall x, In x E -> en_dof x = d /\ exists y odd, corner y /\ en_face x = face y odd) /\
    dualFunction g fg i v0 v1 (fun t k => phi E (s_index t) k).
Proof.
  intros TO Ii Di Dn. pose proof TO as (_ & IE & _ & _ & _ & _ & _ & _ & HN & HI). destruct (HI i Ii) as (A & j & B & j' & LS & IB & J' & EB & AB & F0 & V0 & V1 & F1). pose proof LS as (IA & J & EA & _).
  destruct (two_triangles G TR OS IA IB J J' AB ltac:(congruence)) as (W1 & W2).
  set (v0 := vtx A (firstCorner j)) in *. set (v1 := vtx A (secondCorner j)) in *.
  destruct (corners_lt J) as (K1 & K2 & K3). destruct (corners_lt J') as (K1' & K2' & K3').
  assert (C1 : corner (A, firstCorner j)) by (split; assumption). assert (C2 : corner (B, secondCorner j')) by (split; assumption).
  assert (C3 : corner (B, firstCorner j')) by (split; assumption). assert (C4 : corner (A, secondCorner j)) by (split; assumption).
  assert (R0 : 0 <= v0 < g_n2 g) by now apply (vtx_range G TR). assert (R1 : 0 <= v1 < g_n2 g) by now apply (vtx_range G TR).
  assert (V01 : v0 <> v1) by (intro Q; apply K3; eapply (vtx_inj TR IA); eauto).
  destruct (proj2 OS v0 R0) as (o0 & l0 & FA0). destruct (proj2 OS v1 R1) as (o1 & l1 & FA1).
  assert (I1 : inE (A, firstCorner j) = i) by (unfold inE; cbn [fst snd]; rewrite (proj1 (into_first J)); exact EA).
  assert (I2 : outE (B, secondCorner j') = i) by (unfold outE; cbn [fst snd]; rewrite (proj2 (into_first J')); exact EB).
  assert (I3 : inE (B, firstCorner j') = i) by (unfold inE; cbn [fst snd]; rewrite (proj1 (into_first J')); exact EB).
  assert (I4 : outE (A, secondCorner j) = i) by (unfold outE; cbn [fst snd]; rewrite (proj2 (into_first J)); exact EA).
  destruct (one_walk TO FA0 C1 C2 eq_refl W1 ltac:(congruence)) as (E0 & p0 & S0 & D0 & P0 & X0). rewrite I1 in X0.
  destruct (one_walk TO FA1 C3 C4 W2 eq_refl ltac:(congruence)) as (E1 & p1 & S1 & D1 & P1 & X1). rewrite I3 in X1.
  exists (E0 d 1%R ++ E1 d (-1)%R), A, j, v0, v1. split; [exact LS|].
  split. { split; [replace (match j with 0 => 0 | 1 => 2 | _ => 1 end)%nat with (secondCorner j) by (dig j; reflexivity)|replace (match j with 0 => 1 | 1 => 0 | _ => 2 end)%nat with (firstCorner j) by (dig j; reflexivity)]; apply (corner_vtx TR); auto. }
  split.
  { intros check fuel st st' FU OF. rewrite ofold_app in OF. destruct (ofold addFull (E0 d 1%R) st) as [st1|] eqn:O1; cbn [obind] in OF; [|discriminate].
    destruct (HN _ _ _ R0 FA0) as (Q1 & Q2). destruct (HN _ _ _ R1 FA1) as (Q3 & Q4).
    unfold edgeStep. rewrite Di. cbn [access]. destruct (Z.eqb_spec d (-1)); [contradiction|]. rewrite V0, F0. cbn [obind]. rewrite Q1, Q2. cbn [obind access]. rewrite (S0 check d 1%R fuel st st1 FU O1). cbn [bindO].
    rewrite V1, F1. cbn [obind]. rewrite Q3, Q4. cbn [obind access]. now apply S1. }
  split. { intros x I. apply in_app_iff in I as [I|I]; [now apply D0 in I|now apply D1 in I]. }
  set (P := fun f k => phi (E0 d 1%R ++ E1 d (-1)%R) f k).
  assert (PE : forall f k, P f k = (p0 f k - p1 f k)%R) by (intros f k; unfold P; rewrite phi_app, P0, P1; lra).
  (* at each vertex *)
  assert (IN0 : forall x, corner x -> cv x = v0 -> In x l0) by (intros x Cx Vx; apply (fan_in TR x FA0); auto).
  assert (IN1 : forall x, corner x -> cv x = v1 -> In x l1) by (intros x Cx Vx; apply (fan_in TR x FA1); auto).
  assert (NO0 : forall x odd k, corner x -> cv x <> v0 -> p0 (face x odd) k = 0%R).
  { intros x odd k Cx Vx. destruct X0 as (Z & _). apply Z. intros y odd' Iy Q. apply (fan_in TR y FA0) in Iy as (Cy & Vy). apply (face_inj G RF) in Q as (-> & _); auto. }
  assert (NO1 : forall x odd k, corner x -> cv x <> v1 -> p1 (face x odd) k = 0%R).
  { intros x odd k Cx Vx. destruct X1 as (Z & _). apply Z. intros y odd' Iy Q. apply (fan_in TR y FA1) in Iy as (Cy & Vy). apply (face_inj G RF) in Q as (-> & _); auto. }
  assert (CASE : forall x, corner x -> (cv x = v0 /\ endSign v0 v1 (cv x) = 1%R /\ In x l0 /\ forall odd k, P (face x odd) k = p0 (face x odd) k) \/
     (cv x = v1 /\ endSign v0 v1 (cv x) = (-1)%R /\ In x l1 /\ forall odd k, P (face x odd) k = (- p1 (face x odd) k)%R) \/
     (cv x <> v0 /\ cv x <> v1 /\ endSign v0 v1 (cv x) = 0%R /\ forall odd k, P (face x odd) k = 0%R)).
  { intros x Cx. unfold endSign. destruct (Z.eqb_spec (cv x) v0) as [Q|Q]; [|destruct (Z.eqb_spec (cv x) v1) as [Q'|Q']].
    - left. split; [exact Q|]. split; [reflexivity|]. split; [auto|]. intros odd k. rewrite PE, NO1 by (auto; congruence). lra.
    - right. left. split; [exact Q'|]. split; [reflexivity|]. split; [auto|]. intros odd k. rewrite PE, NO0 by auto. lra.
    - right. right. split; [exact Q|]. split; [exact Q'|]. split; [reflexivity|]. intros odd k. rewrite PE, NO0, NO1 by auto. lra. }
  pose proof (fan_boundary G TR FA0) as OB0. pose proof (fan_boundary G TR FA1) as OB1. pose proof (fan_triangles G TR FA0) as TA0. pose proof (fan_triangles G TR FA1) as TA1.
  destruct X0 as (_ & Y1 & Y2 & Y3 & Y4 & Y5 & Y6). destruct X1 as (_ & Z1 & Z2 & Z3 & Z4 & Z5 & Z6).
  assert (CROSS : forall x odd, corner x -> P (face x odd) 2%nat = (if (if odd then outE x else inE x) =? i then endSign v0 v1 (cv x) * (1 / 2) else 0)%R).
  { intros x odd Cx. destruct (CASE x Cx) as [(_ & -> & I & ->)|[(_ & -> & I & ->)|(_ & _ & -> & ->)]].
    - rewrite Y4 by exact I. destruct (_ =? i); lra.
    - rewrite Z4 by exact I. destruct (_ =? i); lra.
    - destruct (_ =? i); lra. }
  assert (CONF : forall x odd k y odd' k', corner x -> corner y -> (k < 3)%nat -> (k' < 3)%nat -> kindOf x odd k = kindOf y odd' k' -> (x, odd, k) <> (y, odd', k') -> (P (face x odd) k + P (face y odd') k' = 0)%R).
  { assert (VBc : forall x, corner x -> (P (face x true) 1%nat + P (face x false) 0%nat = 0)%R).
    { intros x Cx. destruct (CASE x Cx) as [(_ & _ & I & Q)|[(_ & _ & I & Q)|(_ & _ & _ & Q)]]; rewrite !Q; [pose proof (Y1 x I)|pose proof (Z1 x I)|]; lra. }
    assert (VMc : forall x y, corner x -> corner y -> cv x = cv y -> inE x = outE y -> (P (face x false) 1%nat + P (face y true) 0%nat = 0)%R).
    { intros x y Cx Cy V E. destruct (CASE x Cx) as [(Vx & _ & I & Q)|[(Vx & _ & I & Q)|(Vx & Vx' & _ & Q)]], (CASE y Cy) as [(Vy & _ & I' & Q')|[(Vy & _ & I' & Q')|(Vy & Vy' & _ & Q')]]; try congruence; rewrite Q, Q'.
      - apply Y2; [|exact E]. now apply (turn_cyc G TR OS FA0).
      - assert (cyc l1 x y) by now apply (turn_cyc G TR OS FA1). specialize (Z2 x y H E). lra.
      - lra. }
    intros x odd k y odd' k' Cx Cy K K' KE D. destruct (kind_pairs G TR OS Cx Cy K K' KE D) as [(<- & Q)|[(<- & Q)|[(V & Q & E)|[(V & Q & E)|(-> & -> & -> & ->)]]]]; try injection Q as -> -> -> ->.
    - now apply VBc.
    - rewrite Rplus_comm. now apply VBc.
    - now apply VMc.
    - rewrite Rplus_comm. apply VMc; auto.
    - rewrite !CROSS by auto. destruct Cx as (Ie & Ks). destruct (sides_lt Ks) as (A1 & A2 & _ & A4 & A5).
      assert (ME : (if negb odd then outE (mate x odd) else inE (mate x odd)) = (if odd then outE x else inE x)).
      { unfold mate, outE, inE. cbn [fst snd]. destruct odd; cbn [negb fst snd]; [now rewrite (proj1 (into_first A2))|now rewrite (proj2 (into_first A1))]. }
      rewrite ME. destruct (Z.eqb_spec (if odd then outE x else inE x) i) as [Q|Q]; [|lra].
      assert (SGN : forall s, (s < 3)%nat -> edg (fst x) s = i -> (endSign v0 v1 (vtx (fst x) (firstCorner s)) + endSign v0 v1 (vtx (fst x) (secondCorner s)) = 0)%R).
      { intros s S Es. destruct (ends_of_edge TR IA Ie J S ltac:(congruence)) as [(Qa & Qb)|(Qa & Qb)]; rewrite Qa, Qb; fold v0 v1; unfold endSign; rewrite !Z.eqb_refl; destruct (Z.eqb_spec v1 v0); try congruence; lra. }
      unfold cv, mate. cbn [fst snd]. destruct odd.
      + specialize (SGN _ A2 Q). rewrite A5 in SGN. lra.
      + specialize (SGN _ A1 Q). rewrite A4 in SGN. lra. }
  change (dualFunction g fg i v0 v1 (fun t k => P (s_index t) k)).
  split.
  - intros tt k tt' k' z I I' S S' D. destruct (all_fT G RF I) as (x & odd & Cx & ->). destruct (all_fT G RF I') as (y & odd' & Cy & ->). rewrite (index_fT RF odd Cx), (index_fT RF odd' Cy).
    apply (side_edg (FT RF)) in S as (K & Ez); [|exact I]. apply (side_edg (FT RF)) in S' as (K' & Ez'); [|exact I']. apply CONF; auto.
    + apply (fe_kind G TR RF); auto. unfold BcProofs3.fe. congruence.
    + intro Q. injection Q as -> -> ->. now apply D.
  - intros tt v I Hv. destruct (all_fT G RF I) as (x & odd & Cx & ->). rewrite (index_fT RF odd Cx). destruct (fT_spec RF odd Cx) as (_ & _ & VE). cbv zeta in VE.
    assert (Vv : v = cv x) by (rewrite VE in Hv; destruct odd; cbn in Hv; unfold cv; congruence). subst v. clear Hv.
    assert (RI : 0 <= i < g_n1 g) by (apply IE; exact Ii).
    pose proof Cx as (Ie & Ks). pose proof (vtx_range G TR Ie Ks) as RV. pose proof (proj1 (proj2 G) _ Ie) as RX.
    assert (MM : edg (fst x) (mside (snd x) odd) = if odd then outE x else inE x) by (unfold mside, outE, inE; destruct odd; reflexivity).
    assert (INM : In (g_n2 g + i) (s_verts (fT x odd)) <-> (if odd then outE x else inE x) = i).
    { rewrite VE, MM. unfold cv in *. destruct odd; cbn [In]; split; intro Q; try (destruct Q as [Q|[Q|[Q|[]]]]; lia); auto; [right; left|right; right; left]; lia. }
    split; [|split; [|split; [|split; [|split]]]].
    + intro NB. destruct (CASE x Cx) as [(Vx & -> & Ix & Q)|[(Vx & -> & Ix & Q)|(_ & _ & -> & Q)]]; rewrite !Q.
      * rewrite Vx in *. rewrite TA0. rewrite (Y3 x odd Ix). destruct o0; [exfalso; apply NB, OB0; reflexivity|]. lra.
      * rewrite Vx in *. rewrite TA1. pose proof (Z3 x odd Ix) as S. destruct o1; [exfalso; apply NB, OB1; reflexivity|]. lra.
      * lra.
    + intro BD. destruct (CASE x Cx) as [(Vx & _ & Ix & Q)|[(Vx & _ & Ix & Q)|(_ & _ & _ & Q)]]; rewrite !Q.
      * rewrite Vx in *. rewrite (Y3 x odd Ix). now rewrite (proj2 OB0 BD).
      * rewrite Vx in *. pose proof (Z3 x odd Ix) as S. rewrite (proj2 OB1 BD) in S. lra.
      * lra.
    + intro Q. apply INM in Q. rewrite CROSS by exact Cx. rewrite Q, Z.eqb_refl. reflexivity.
    + intro Q. rewrite CROSS by exact Cx. destruct (Z.eqb_spec (if odd then outE x else inE x) i) as [Z|Z]; [exfalso; apply Q; now apply INM|reflexivity].
    + intros N0 N1 k K. destruct (CASE x Cx) as [(Vx & _)|[(Vx & _)|(_ & _ & _ & Q)]]; [congruence|congruence|apply Q].
    + intros k z ends Hk. destruct (triangulation_triangles (FT RF) I) as (LF & _). assert (K : (k < 3)%nat) by (rewrite <- LF; apply nth_error_Some; congruence).
      assert (Ez : z = fe x odd k) by (symmetry; unfold BcProofs3.fe, edg; apply nth_error_nth; rewrite nth_error_map, Hk; reflexivity).
      destruct (proj1 (FT RF) _ I) as (a & b & c & e0 & e1 & e2 & VE' & _ & FE'). rewrite FE' in Hk.
      rewrite VE in VE'. split.
      * intros NB J1 J2.
        assert (CC : odd = true /\ k = 0%nat /\ outE x = i \/ odd = false /\ k = 1%nat /\ inE x = i).
        { rewrite MM in VE'. unfold cv in *. dig k; cbn in Hk; injection Hk as <- <-; destruct odd; injection VE' as <- <- <-; cbn [In] in J1, J2.
          - left. split; [reflexivity|]. split; [reflexivity|]. lia.
          - exfalso. lia.
          - exfalso. lia.
          - right. split; [reflexivity|]. split; [reflexivity|]. lia.
          - exfalso. assert (RO : 0 <= outE x < g_n1 g) by (apply (edg_range G TR Ie); apply (sides_lt Ks)). lia.
          - exfalso. assert (RO : 0 <= inE x < g_n1 g) by (apply (edg_range G TR Ie); apply (sides_lt Ks)). lia. }
        destruct (CASE x Cx) as [(Vx & _ & Ix & Q)|[(Vx & _ & Ix & Q)|(_ & _ & _ & Q)]]; rewrite Q; [| |reflexivity]; rewrite Vx in NB.
        -- assert (o0 = false) by (destruct o0; [exfalso; apply NB, OB0; reflexivity|reflexivity]). destruct CC as [(-> & -> & E)|(-> & -> & E)]; now apply Y5.
        -- assert (o1 = false) by (destruct o1; [exfalso; apply NB, OB1; reflexivity|reflexivity]). destruct CC as [(-> & -> & E)|(-> & -> & E)]; [destruct (Z5 H x Ix) as (_ & X)|destruct (Z5 H x Ix) as (X & _)]; rewrite (X E); lra.
      * intro BE. subst z.
        assert (CC : odd = true /\ k = 0%nat /\ boundaryEdge g (outE x) \/ odd = false /\ k = 1%nat /\ boundaryEdge g (inE x)).
        { dig k; destruct odd.
          - left. split; [reflexivity|]. split; [reflexivity|]. apply (count_VM G TR RF OS Cx (t := 0) ltac:(lia) (kind_odd0 x)). exact BE.
          - exfalso. destruct (count_VB G TR RF Cx) as (_ & N). now apply N.
          - exfalso. destruct (count_VB G TR RF Cx) as (N & _). now apply N.
          - right. split; [reflexivity|]. split; [reflexivity|]. apply (count_VM G TR RF OS Cx (t := 1) ltac:(lia) (kind_even1 x)). exact BE.
          - exfalso. exact (count_MB G TR RF Cx BE).
          - exfalso. exact (count_MB G TR RF Cx BE). }
        destruct (CASE x Cx) as [(Vx & -> & Ix & Q)|[(Vx & -> & Ix & Q)|(_ & _ & -> & Q)]]; rewrite Q; [| |ring]; rewrite Vx.
        -- rewrite TA0. destruct CC as [(-> & -> & BB)|(-> & -> & BB)]; cbn [Nat.eqb]; [rewrite (proj1 (Y6 x Ix) BB)|rewrite (proj2 (Y6 x Ix) BB)]; lra.
        -- rewrite TA1. destruct CC as [(-> & -> & BB)|(-> & -> & BB)]; cbn [Nat.eqb]; [rewrite (proj1 (Z6 x Ix) BB)|rewrite (proj2 (Z6 x Ix) BB)]; lra.
Qed.
End Edge.
