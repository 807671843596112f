From Coq Require Import Reals Lra Sorted.
From Verif Require Import Base ComplexR SegModel SegSpec SegProofs AsmModel SpaceModel SpaceSpec SpaceProofs SpaceP1Proofs SpaceRwgProofs PolySpec PolyProofs6 VecModel VecSpec VecProofs3 VecProofs4
  BaryModel BarySpec BaryProofs BaryProofs2 BaryProofs3 BaryProofs4 BcModel BcSpec BcProofs BcProofs2 BcProofs3 BcProofs4 BcProofs5 BcProofs6 BcProofs7.
Set Implicit Arguments.
Unset Strict Implicit.
Local Open Scope Z_scope.

Lemma chained_nth next : forall fs face, (forall j x y, nth_error (face :: fs) j = Some x -> nth_error (face :: fs) (S j) = Some y -> zget next x = Some y) -> chained next face fs.
Proof.
  induction fs as [|f fs IH]; intros face H; cbn [chained]; [exact I|]. split; [now apply (H 0%nat)|]. apply IH. intros j x y X Y. now apply (H (S j)).
Qed.
Lemma FF_NoDup g fg son (G : gridOk g) (RF : refinement g fg son) : forall l, NoDup l -> (forall x, In x l -> corner g x) -> NoDup (FF son l).
Proof.
  induction l as [|x l IH]; intros N C; cbn [FF flat_map app]; [constructor|]. inversion N as [|? ? NI N']. subst.
  assert (X : forall odd, ~ In (face son x odd) (FF son l)).
  { intros odd I. apply FF_in in I as (y & odd' & I & E). apply (face_inj G RF) in E as (<- & _); [contradiction| |]; apply C; cbn; auto. }
  constructor; [intros [E|I]|constructor].
  - apply (face_inj G RF) in E as (_ & E); [discriminate| |]; apply C; cbn; auto.
  - now apply (X true).
  - apply (X false).
  - apply IH; [exact N'|]. intros y I. apply C. now right.
Qed.
Lemma last_app_ne A (l1 l2 : list A) d : l2 <> [] -> last (l1 ++ l2) d = last l2 d.
Proof. intro N. induction l1 as [|x l1 IH]; [reflexivity|]. cbn [app last]. destruct (l1 ++ l2) eqn:E; [|exact IH]. destruct l1; [contradiction|discriminate]. Qed.
Lemma FF_last son l x d : last (FF son (l ++ [x])) d = face son x false.
Proof. unfold FF. rewrite flat_map_app. cbn [flat_map app]. now rewrite last_app_ne by discriminate. Qed.
Lemma rot_cyc_back (l1 l2 : list (selt * nat)) x : In x (l1 ++ l2) -> exists q, nth_error (l2 ++ l1) q = Some x /\ (q < length (l2 ++ l1))%nat.
Proof. intro I. assert (J : In x (l2 ++ l1)) by (rewrite in_app_iff in *; tauto). apply In_nth_error in J as (q & Q). exists q. split; [exact Q|]. apply nth_error_Some. congruence. Qed.

Section FanWalk.
Variables (g fg : sgrid) (son : Z -> nat -> Z).
Hypotheses (G : gridOk g) (TR : triangulation g) (RF : refinement g fg son) (OS : orientedSurface g).
Notation corner := (corner g).
Notation face := (face son).
Variables (nx e2f f2e : list Z).
Hypotheses (NX1 : forall x, corner x -> zget nx (face x true) = Some (face x false))
  (NX2 : forall v o l x y, fanAt g v o l -> cyc l x y -> zget nx (face x false) = Some (face y true))
  (GA1 : forall x, corner x -> exists a y, zget f2e (face x true) = Some a /\ zget e2f a = Some y /\ y <> -1)
  (GA2 : forall x, corner x -> exists a y, zget f2e (face x false) = Some a /\ zget e2f a = Some y /\ (y = -1 <-> boundaryEdge g (inE x))).
Definition gapAt (f : Z) : bool := match zget f2e f with Some a => match zget e2f a with Some y => y =? -1 | None => false end | None => false end.
Lemma gap_true x : corner x -> gapAt (face x true) = false.
Proof. intro C. destruct (GA1 C) as (a & y & E1 & E2 & N). unfold gapAt. rewrite E1, E2. destruct (Z.eqb_spec y (-1)); [contradiction|reflexivity]. Qed.
Lemma gap_false x : corner x -> (gapAt (face x false) = true <-> boundaryEdge g (inE x)).
Proof. intro C. destruct (GA2 C) as (a & y & E1 & E2 & N). unfold gapAt. rewrite E1, E2. rewrite <- N. apply Z.eqb_eq. Qed.
Lemma gap_ok x odd : corner x -> exists a y, zget f2e (face x odd) = Some a /\ zget e2f a = Some y /\ gapAt (face x odd) = (y =? -1).
Proof.
  intro C. unfold gapAt. destruct odd.
  - destruct (GA1 C) as (a & y & E1 & E2 & N). exists a, y. rewrite E1, E2. auto.
  - destruct (GA2 C) as (a & y & E1 & E2 & N). exists a, y. rewrite E1, E2. auto.
Qed.
Lemma not_boundary x y : corner x -> corner y -> cv x = cv y -> inE x = outE y -> ~ boundaryEdge g (inE x).
Proof.
  intros C C' V E B. pose proof (outSide TR C') as S1. rewrite <- E in S1. pose proof (one_side B (inSide TR C) S1) as X. injection X as X _. revert X. apply (in_out_neq G TR); auto.
Qed.

Lemma fan_walk v o l a y0 : fanAt g v o l -> cyc l a y0 -> inE a = outE y0 ->
  exists (E : Z -> R -> list entry) (ph : Z -> nat -> R),
    (forall check d w fuel st st', (2 * length l <= fuel)%nat -> ofold addFull (E d w) st = Some st' ->
       walkEnd check nx e2f f2e d (Z.of_nat (length l)) o (face a false) w fuel st = Done st') /\
    (forall d w x, In x (E d w) -> en_dof x = d /\ exists y odd, In y l /\ en_face x = face y odd) /\
    (forall d w f t, phi (E d w) f t = (w * ph f t)%R) /\
    (forall f t, (forall x odd, In x l -> f <> face x odd) -> ph f t = 0%R) /\
    (forall x, In x l -> (ph (face x true) 1%nat + ph (face x false) 0%nat = 0)%R) /\
    (forall x y, cyc l x y -> inE x = outE y -> (ph (face x false) 1%nat + ph (face y true) 0%nat = 0)%R) /\
    (forall x odd, In x l -> (ph (face x odd) 0%nat + ph (face x odd) 1%nat + ph (face x odd) 2%nat = if o then 0 else 1 / (2 * INR (length l)))%R) /\
    (forall x odd, In x l -> ((x, odd) = (a, false) \/ (x, odd) = (y0, true)) /\ ph (face x odd) 2%nat = (1 / 2)%R \/
                             (x, odd) <> (a, false) /\ (x, odd) <> (y0, true) /\ ph (face x odd) 2%nat = 0%R) /\
    (o = false -> ph (face a false) 1%nat = 0%R /\ ph (face y0 true) 0%nat = 0%R) /\
    (o = true -> forall h z, nth_error l 0 = Some h -> nth_error l (length l - 1) = Some z ->
       ph (face h true) 0%nat = (- ((INR (length l) - 1) / INR (length l)))%R /\ ph (face z false) 1%nat = (- (1 / INR (length l)))%R).
Proof.
  intros F CA EA. pose proof F as (NE & ND & _ & _ & _). pose proof (cyc_in CA) as (Ia & Iy).
  assert (CO : forall x, In x l -> corner x /\ cv x = v) by (intros x I; now apply (fan_in TR x F)).
  assert (NBA : ~ boundaryEdge g (inE a)) by (destruct (CO _ Ia), (CO _ Iy); apply (@not_boundary a y0); auto; congruence).
  destruct (in_split _ _ Ia) as (l1' & l2 & SP). set (l1 := l1' ++ [a]). assert (EL : l = l1 ++ l2) by (unfold l1; rewrite <- app_assoc; exact SP).
  set (m := l2 ++ l1). assert (LM : length m = length l) by (unfold m; rewrite EL, !app_length; lia).
  set (N := length l) in *. assert (N1 : (1 <= N)%nat) by (unfold N; destruct l; [congruence|cbn; lia]).
  assert (INM : forall x, In x m <-> In x l) by (intro x; unfold m; rewrite EL, !in_app_iff; tauto).
  assert (NDM : NoDup m). { unfold m. apply (Permutation.Permutation_NoDup (l := l)); [|exact ND]. rewrite EL. apply Permutation.Permutation_app_comm. }
  destruct (ex_intro (fun W => W = FF son m) _ eq_refl) as (W & HW). assert (LW : length W = (2 * N)%nat) by (rewrite HW, FF_length; lia).
  assert (NDW : NoDup W) by (rewrite HW; apply (FF_NoDup G RF); [exact NDM|]; intros x I; apply CO; now apply INM).
  assert (LAST : nth_error m (N - 1) = Some a). { unfold m, l1. rewrite app_assoc. rewrite nth_error_app2; [|unfold m, l1 in LM; rewrite !app_length in *; cbn in *; lia]. replace (N - 1 - length (l2 ++ l1'))%nat with 0%nat; [reflexivity|]. unfold m, l1 in LM. rewrite !app_length in *. cbn in LM. lia. }
  assert (POS : forall x, In x l -> exists q, nth_error m q = Some x /\ (q < N)%nat).
  { intros x I. apply INM in I. apply In_nth_error in I as (q & Q). exists q. split; [exact Q|]. rewrite <- LM. apply nth_error_Some. congruence. }
  assert (HEAD : nth_error m 0 = Some y0).
  { destruct (nth_error m 0) as [z|] eqn:Z0; [|apply nth_error_None in Z0; lia]. f_equal. eapply (cyc_fun ND); [|exact CA]. rewrite EL. unfold m in *. apply rot_wrap; [|exact Z0|unfold l1; destruct l1'; discriminate].
    rewrite LM. exact LAST. }
  assert (exists face0 fs, W = face0 :: fs) as (face0 & fs & EW) by (clear - LW N1; destruct W; [cbn in LW; lia|eauto]).
  assert (WN : forall q x, nth_error m q = Some x -> nth_error W (2 * q) = Some (face x true) /\ nth_error W (S (2 * q)) = Some (face x false)) by (intros q x Q; rewrite HW; now apply FF_nth).
  assert (F0 : face0 = face y0 true). { destruct (WN _ _ HEAD) as (A & _). rewrite EW in A. cbn in A. congruence. }
  assert (STEP : forall q x y, nth_error m q = Some x -> nth_error m (S q) = Some y -> cyc l x y) by (intros q x y X Y; rewrite EL; eapply rot_cyc; eassumption).
  (* the walk *)
  set (E := fun (d : Z) (w : R) => walkEntries d (Z.of_nat N) o w gapAt face0 fs).
  assert (EN : forall d w j f, nth_error W j = Some f -> nth_error (E d w) j = Some (Entry f (Col (q0 N o gapAt W j) (q1 N o gapAt W j) (q2 W j)) d w)).
  { intros d w j f H. rewrite EW in H. unfold E, walkEntries. rewrite (entries_nth _ _ _ _ _ _ _ _ _ H). unfold q0, q1, q2. rewrite EW. reflexivity. }
  assert (EF : forall d w, map en_face (E d w) = W) by (intros d w; unfold E, walkEntries; rewrite entries_faces; auto).
  exists E, (phi (E 0 1%R)).
  assert (VAL : forall x (odd : bool) q t, nth_error m q = Some x -> let j := (2 * q + (if odd then 0 else 1))%nat in
    phi (E 0 1%R) (face x odd) t = kOf (Col (q0 N o gapAt W j) (q1 N o gapAt W j) (q2 W j)) t).
  { intros x odd q t Q j. destruct (WN _ _ Q) as (A & B).
    assert (H : nth_error W j = Some (face x odd)). { unfold j. destruct odd; [rewrite Nat.add_0_r; exact A|]. replace (2 * q + 1)%nat with (S (2 * q)) by lia. exact B. }
    rewrite (@phi_at (E 0 1%R) (face x odd) j _ t ltac:(rewrite EF; exact NDW) (EN _ _ _ _ H) eq_refl). cbn [en_w en_col]. apply Rmult_1_l. }
  assert (PAST : o = true -> pastAt gapAt false W (2 * N - 1) = true).
  { intro O. unfold pastAt. cbn [orb]. apply existsb_exists.
    (* the last triangle of the fan *)
    destruct (nth_error l (N - 1)) as [z|] eqn:Z0; [|apply nth_error_None in Z0; unfold N in *; lia].
    assert (Iz : In z l) by (eapply nth_error_In; exact Z0). destruct (cyc_succ Iz) as (z' & CZ).
    assert (B : boundaryEdge g (inE z)). { destruct F as (_ & _ & _ & _ & L5). destruct l as [|h l0] eqn:El0; [destruct Iz|]. specialize (L5 h z eq_refl Z0). rewrite O in L5. destruct L5 as (_ & (i & S1 & S2)).
      apply (side_edg TR) in S1 as (_ & S1); [|apply (CO _ Iz)]. unfold inE. congruence. }
    exists (face z false). split; [|apply gap_false; [apply (CO _ Iz)|exact B]].
    destruct (POS _ Iz) as (q & Q & Lq). destruct (WN _ _ Q) as (_ & X). assert (q <> N - 1)%nat by (intros ->; assert (z = a) by congruence; subst z; contradiction).
    rewrite <- (firstn_skipn (2 * N - 1) W) in X. rewrite nth_error_app1 in X; [eapply nth_error_In; exact X|]. rewrite firstn_length. lia. }
  split; [|split; [|split; [|split; [|split; [|split; [|split; [|split; [|split]]]]]]]].
  - intros check d w fuel st st' FU OF. apply walkEnd_entries with (gap := gapAt) (face := face0) (fs := fs).
    + rewrite F0. eapply NX2; eassumption.
    + apply chained_nth. rewrite <- EW. intros j x y X Y.
      assert (LJ : (S j < 2 * N)%nat) by (rewrite <- LW; apply nth_error_Some; congruence).
      destruct (Nat.Even_or_Odd j) as [(q & ->)|(q & ->)].
      * destruct (nth_error m q) as [z|] eqn:Zq; [|apply nth_error_None in Zq; lia]. destruct (WN _ _ Zq) as (A & B). assert (x = face z true) by congruence. assert (y = face z false) by congruence. subst. apply NX1. apply CO, INM. eapply nth_error_In; exact Zq.
      * destruct (nth_error m q) as [z|] eqn:Zq; [|apply nth_error_None in Zq; lia]. destruct (nth_error m (S q)) as [z'|] eqn:Zq'; [|apply nth_error_None in Zq'; lia].
        destruct (WN _ _ Zq) as (_ & B). destruct (WN _ _ Zq') as (A & _). replace (2 * q + 1)%nat with (S (2 * q)) in * by lia. replace (S (S (2 * q))) with (2 * S q)%nat in Y by lia.
        assert (x = face z false) by congruence. assert (y = face z' true) by congruence. subst. eapply NX2; [exact F|]. eapply STEP; eassumption.
    + rewrite <- EW, HW. unfold m, l1. rewrite app_assoc. apply FF_last.
    + rewrite <- EW. exact NDW.
    + rewrite EW in LW. cbn [length] in LW. lia.
    + rewrite EW in LW. cbn [length] in LW. lia.
    + intros _ f I. rewrite <- EW, HW in I. apply FF_in in I as (x & odd & I & ->). apply gap_ok. apply CO. now apply INM.
    + exact OF.
  - intros d w x I. split; [eapply entries_dof; exact I|]. assert (J : In (en_face x) W) by (rewrite <- (EF d w); now apply in_map). rewrite HW in J. apply FF_in in J as (y & odd & J & Q). exists y, odd. split; [now apply INM|exact Q].
  - intros d w f t. destruct (in_dec Z.eq_dec f W) as [I|I].
    + apply In_nth_error in I as (j & J). rewrite (@phi_at (E d w) f j _ t ltac:(rewrite EF; exact NDW) (EN d w _ _ J) eq_refl). rewrite (@phi_at (E 0 1%R) f j _ t ltac:(rewrite EF; exact NDW) (EN 0 1%R _ _ J) eq_refl). cbn [en_w en_col]. ring.
    + rewrite !phi_none by (rewrite EF; exact I). ring.
  - intros f t H. apply phi_none. rewrite EF. intro I. rewrite HW in I. apply FF_in in I as (x & odd & I & E'). apply (H x odd); [now apply INM|exact E'].
  - intros x I. destruct (POS _ I) as (q & Q & L). rewrite !(VAL _ _ _ _ Q). cbn [kOf k0 k1]. rewrite Nat.add_0_r. replace (2 * q + 1)%nat with (S (2 * q)) by lia.
    destruct (WN _ _ Q) as (A & _). eapply (q_pair N1 LW A); [lia|]. intros _. apply gap_true. apply (CO _ I).
  - intros x y CY T. pose proof (cyc_in CY) as (Ix & Iy'). destruct (POS _ Ix) as (q & Q & L). destruct (Nat.eq_dec q (N - 1)) as [->|D].
    + assert (x = a) by congruence. subst x. assert (y = y0) by (eapply (cyc_fun ND); eassumption). subst y. rewrite (VAL _ _ _ _ LAST), (VAL _ _ _ _ HEAD). cbn [kOf k0 k1].
      replace (2 * (N - 1) + 1)%nat with (2 * N - 1)%nat by lia. apply (q_wrap o gapAt N1 LW).
    + destruct (nth_error m (S q)) as [z|] eqn:Zq; [|apply nth_error_None in Zq; lia]. assert (z = y) by (eapply (cyc_fun ND); [exact (STEP _ _ _ Q Zq)|exact CY]). subst z.
      rewrite (VAL _ _ _ _ Q), (VAL _ _ _ _ Zq). cbn [kOf k0 k1]. replace (2 * q + 1)%nat with (S (2 * q)) by lia. replace (2 * S q + 0)%nat with (S (S (2 * q))) by lia.
      destruct (WN _ _ Q) as (_ & B). eapply (q_pair N1 LW B); [lia|]. intros _. destruct (gapAt (face x false)) eqn:GP; [|reflexivity]. exfalso. apply gap_false in GP; [|apply (CO _ Ix)]. revert GP. destruct (CO _ Ix), (CO _ Iy'). apply (@not_boundary x y); auto; congruence.
  - intros x odd I. destruct (POS _ I) as (q & Q & L). rewrite !(VAL _ _ _ _ Q). cbn [kOf k0 k1 k2]. rewrite INR_IZR_INZ. apply (q_sum N1 LW); [destruct odd; lia|exact PAST].
  - intros x odd I. destruct (POS _ I) as (q & Q & L). rewrite (VAL _ _ _ _ Q). cbn [kOf k2]. rewrite (q_two LW).
    destruct (Nat.eqb_spec (2 * q + (if odd then 0 else 1)) 0) as [A|A]; [|destruct (Nat.eqb_spec (S (2 * q + (if odd then 0 else 1))) (2 * N)) as [B|B]]; cbn [orb].
    + left. split; [|reflexivity]. right. destruct odd; [|lia]. assert (q = 0)%nat by lia. subst q. congruence.
    + left. split; [|reflexivity]. left. destruct odd; [lia|]. assert (q = N - 1)%nat by lia. subst q. congruence.
    + right. split; [|split; [|reflexivity]]; intro X; injection X as -> ->.
      * apply B. assert (q = N - 1)%nat by (eapply (proj1 (NoDup_nth_error m) NDM); [lia|congruence]). lia.
      * apply A. assert (q = 0)%nat by (eapply (proj1 (NoDup_nth_error m) NDM); [lia|congruence]). lia.
  - intro O. rewrite (VAL _ _ _ _ LAST), (VAL _ _ _ _ HEAD). cbn [kOf k0 k1]. replace (2 * (N - 1) + 1)%nat with (2 * N - 1)%nat by lia. now apply (q_ends gapAt N1 LW).
  - intros O h z H0 Hz. assert (Ih : In h l) by (eapply nth_error_In; exact H0). assert (Iz : In z l) by (eapply nth_error_In; exact Hz).
    assert (CZ : cyc l z h) by (right; auto). destruct (CO _ Iz) as (Kz & Vz). destruct (CO _ Ih) as (Kh & Vh).
    assert (B : boundaryEdge g (inE z)). { destruct F as (_ & _ & _ & _ & L5). specialize (L5 h z H0 Hz). rewrite O in L5. destruct L5 as (_ & (i & S1 & S2)). apply (side_edg TR) in S1 as (_ & S1); [|apply Kz]. unfold inE. congruence. }
    destruct (POS _ Iz) as (q & Q & L). assert (q <> N - 1)%nat by (intros ->; assert (z = a) by congruence; subst z; contradiction).
    destruct (nth_error m (S q)) as [z'|] eqn:Zq; [|apply nth_error_None in Zq; lia]. assert (z' = h) by (eapply (cyc_fun ND); [exact (STEP _ _ _ Q Zq)|exact CZ]). subst z'.
    destruct (WN _ _ Q) as (X1 & X2).
    assert (P1 : pastAt gapAt false W (S (2 * q)) = false).
    { unfold pastAt. cbn [orb]. apply not_true_iff_false. intro EX. apply existsb_exists in EX as (f & If & Gf).
      assert (exists j, nth_error W j = Some f /\ (j < S (2 * q))%nat) as (j & J1 & J2).
      { apply In_nth_error in If as (j & J). assert (j < S (2 * q))%nat. { assert (nth_error (firstn (S (2 * q)) W) j <> None) as NN by congruence. apply nth_error_Some in NN. rewrite firstn_length in NN. lia. }
        exists j. split; [|assumption]. rewrite <- (firstn_skipn (S (2 * q)) W). rewrite nth_error_app1; [exact J|]. apply nth_error_Some. congruence. }
      assert (IfW : In f W) by (eapply nth_error_In; exact J1). rewrite HW in IfW. apply FF_in in IfW as (x & odd & Ix & ->). apply INM in Ix. destruct (CO _ Ix) as (Kx & Vx).
      destruct odd; [rewrite (gap_true Kx) in Gf; discriminate|]. apply (gap_false Kx) in Gf. destruct (in_boundary G TR F Ix Gf) as (_ & Nx). assert (x = z) by (unfold N in Hz; congruence). subst x.
      assert (j = S (2 * q)) by (eapply (proj1 (NoDup_nth_error W) NDW); [apply nth_error_Some; congruence|congruence]). lia. }
    rewrite (VAL _ _ _ _ Q), (VAL _ _ _ _ Zq). cbn [kOf k0 k1]. rewrite Nat.add_0_r. rewrite INR_IZR_INZ. pose proof (n_pos N1 LW) as NP. split.
    + unfold q0, cc0. replace (2 * S q)%nat with (S (S (2 * q))) by lia. rewrite (past_S gapAt X2), P1. rewrite (proj2 (gap_false Kz) B). cbn [orb]. rewrite O. field. lra.
    + unfold q1, cc1. replace (2 * q + 1)%nat with (S (2 * q)) by lia. rewrite LW. destruct (Nat.eqb_spec (S (S (2 * q))) (2 * N)); [lia|]. rewrite O, P1. field. lra.
Qed.
End FanWalk.
