From Coq Require Import Reals Lra Sorted Permutation.
From Verif Require Import Base ComplexR SegModel SegSpec SegProofs AsmModel SpaceModel SpaceSpec SpaceProofs SpaceP1Proofs SpaceRwgProofs PolySpec PolyProofs6 VecModel VecSpec VecProofs VecProofs2 VecProofs3 VecProofs4
  BaryModel BarySpec BaryProofs BaryProofs2 BaryProofs3 BaryProofs4 BcModel BcSpec BcProofs BcProofs2 BcProofs3 BcProofs4 BcProofs5 BcProofs6 BcProofs7 BcProofs8 BcProofs9 BcProofs10 BcProofs11 BcProofs12.
Set Implicit Arguments.
Unset Strict Implicit.
Local Open Scope Z_scope.

(** ---- evaluation ---- *)
Section Eval.
Local Open Scope R_scope.
Variables (T : tri) (ks : list col) (cs : list R) (q : R * R).
Definition S_ (n k : nat) : R := rsum (map (fun j => nth j cs 0 * kOf (nth j ks (Col 0 0 0)) k) (seq 0 n)).
Lemma S_step n k : S_ (S n) k = S_ n k + nth n cs 0 * kOf (nth n ks (Col 0 0 0)) k.
Proof. unfold S_. rewrite seq_S, map_app, rsum_app. cbn. lra. Qed.
Definition comb (x : nat -> R) (val : nat -> R * R -> nat -> R) (c : nat) : R := x 0%nat * val 0%nat q c + x 1%nat * val 1%nat q c + x 2%nat * val 2%nat q c.
Lemma sum_bc n : (n <= length cs)%nat -> sumShapes (fun k => hdivValue T (bcValue (nth k ks (Col 0 0 0)) q)) cs n = Some (hdivValue T (comb (S_ n) rtValue)).
Proof.
  unfold sumShapes. induction n as [|n IH]; intro L.
  - cbn. f_equal. unfold hdivValue, vzero, comb, S_. cbn. f_equal; unfold Rdiv; ring.
  - rewrite seq_S, fold_left_app, IH by lia. cbn [fold_left obind plus Nat.add]. rewrite (nth_error_nth' cs 0) by lia. cbn [obind]. f_equal.
    apply vec_eq; unfold hdivValue, vadd, vscale, comb; cbn [vx vy vz]; rewrite !S_step; unfold bcValue; cbn [seq fold_left]; unfold Rdiv; ring.
Qed.
Lemma sum_rbc n : (n <= length cs)%nat -> sumShapes (fun k => hcurlValue T (rbcValue (nth k ks (Col 0 0 0)) q)) cs n = Some (hcurlValue T (comb (S_ n) ncValue)).
Proof.
  unfold sumShapes. induction n as [|n IH]; intro L.
  - cbn. f_equal. unfold hcurlValue, vzero, comb, S_. cbn. f_equal; ring.
  - rewrite seq_S, fold_left_app, IH by lia. cbn [fold_left obind plus Nat.add]. rewrite (nth_error_nth' cs 0) by lia. cbn [obind]. f_equal.
    apply vec_eq; unfold hcurlValue, vadd, vscale, comb; cbn [vx vy vz]; rewrite !S_step; unfold rbcValue; cbn [seq fold_left]; ring.
Qed.
Lemma comb_rotates x : proper T -> hcurlValue T (comb x ncValue) = cross (normal T) (hdivValue T (comb x rtValue)).
Proof.
  intro P. rewrite <- (rotate P). unfold hcurlValue, comb, ncValue. f_equal; ring.
Qed.
Lemma comb_flux x k nu : proper T -> (k < 3)%nat -> onSide k q -> outward T k nu -> dot (hdivValue T (comb x rtValue)) nu * sideLength T k = x k.
Proof.
  intros P K O N. destruct (side_dots P K N) as (L0 & _).
  assert (E : hdivValue T (comb x rtValue) = vadd (vscale (x 0%nat) (hdivValue T (rtValue 0 q))) (vadd (vscale (x 1%nat) (hdivValue T (rtValue 1 q))) (vscale (x 2%nat) (hdivValue T (rtValue 2 q))))).
  { apply vec_eq; unfold hdivValue, vadd, vscale, comb; cbn [vx vy vz]; unfold Rdiv; ring. }
  rewrite E, !dot_add_l, !dot_scale_l. rewrite (@rt_flux T P 0 k q nu), (@rt_flux T P 1 k q nu), (@rt_flux T P 2 k q nu) by (auto; lia). dig k; cbn [Nat.eqb]; field; lra.
Qed.
End Eval.

Lemma foldO_cons A S (f : S -> A -> outcome S) a l s s' : f s a = Done s' -> foldO f (a :: l) s = foldO f l s'.
Proof. intro H. cbn [foldO]. now rewrite H. Qed.
Lemma rsum_perm l l' : Permutation l l' -> rsum l = rsum l'.
Proof. intro P. induction P; cbn; try lra. unfold rsum in *. cbn. lra. Qed.
Lemma rsum_map_ext A (f h : A -> R) l : (forall x, In x l -> f x = h x) -> rsum (map f l) = rsum (map h l).
Proof. intro H. f_equal. now apply map_ext_in. Qed.
Lemma rsum_row (c : entry -> R) (k : nat) f : forall E, rsum (map (fun x => c x * (en_w x * kOf (en_col x) k))%R (row_ E f)) = rsum (map (fun x => if en_face x =? f then c x * (en_w x * kOf (en_col x) k) else 0)%R E).
Proof.
  induction E as [|x E IH]; [reflexivity|]. unfold row_ in *. unfold onFace in *. cbn [filter]. destruct (en_face x =? f) eqn:Q; cbn [map]; unfold rsum in *; cbn [fold_right]; rewrite Q, <- IH; lra.
Qed.

Section All.
Variables (g fg : sgrid) (son : Z -> nat -> Z) (order : list Z).
Hypotheses (G : gridOk g) (TR : triangulation g) (RF : refinement g fg son) (OS : orientedSurface g) (NE : noIsolatedEdge g) (IM : g_n0 fg <= INT_MAX)
  (ND : NoDup order) (ORD : forall i, In i order <-> 0 <= i < g_n1 g).
Notation corner := (corner g).
Notation face := (face son).
(** entries of edge i *)
Definition edgeEntries (t : bctables) (i : Z) (E : list entry) : Prop :=
  exists d A j v0 v1, zget (t_dofs t) i = Some d /\ d <> -1 /\ lowSide g i A j /\ sideRuns A j v1 v0 /\
    (forall x, In x E -> en_dof x = d /\ exists y odd, corner y /\ en_face x = face y odd) /\
    dualFunction g fg i v0 v1 (fun t k => phi E (s_index t) k).
Lemma all_edges t edges : tablesOk g son t edges -> forall l, (forall i, In i l -> 0 <= i < g_n1 g) ->
  exists Es : list (Z * list entry), map fst Es = filter (fun i => if in_dec Z.eq_dec i edges then true else false) l /\
    (forall p, In p Es -> edgeEntries t (fst p) (snd p)) /\
    (forall check fuel st st', (length (g_elts fg) <= fuel)%nat -> ofold addFull (flat_map snd Es) st = Some st' -> foldO (edgeStep check fuel t) l st = Done st').
Proof.
  intros TO. pose proof TO as (_ & IE & _ & HD & _). induction l as [|i l IH]; intro R.
  - exists []. split; [reflexivity|]. split; [intros p []|]. intros check fuel st st' _ O. cbn in *. congruence.
  - destruct IH as (Es & A & B & C); [intros k I; apply R; now right|]. destruct (HD i (R i (or_introl eq_refl))) as (d & D1 & D2). cbn [filter]. destruct (in_dec Z.eq_dec i edges) as [I|I].
    + destruct D2 as [(_ & N)|(D2 & _)]; [contradiction|]. assert (Dn : d <> -1) by lia.
      destruct (edge_lemma G TR RF OS TO I D1 Dn) as (E & A0 & j & v0 & v1 & X1 & X2 & X3 & X4 & X5).
      exists ((i, E) :: Es). split; [cbn [map fst]; now f_equal|]. split.
      * intros p [<-|P]; [|now apply B]. cbn [fst snd]. exists d, A0, j, v0, v1. auto 10.
      * intros check fuel st st' FU O. cbn [flat_map snd] in O. rewrite ofold_app in O. destruct (ofold addFull E st) as [st1|] eqn:O1; cbn [obind] in O; [|discriminate].
        rewrite (foldO_cons _ (X3 check fuel st st1 FU O1)). now apply C.
    + destruct D2 as [(-> & _)|(_ & D2)]; [|exfalso; apply I; eapply nth_error_In; exact D2].
      exists Es. split; [exact A|]. split; [exact B|]. intros check fuel st st' FU O. rewrite (@foldO_cons _ _ _ _ _ _ st); [now apply C|]. unfold edgeStep. rewrite D1. reflexivity.
Qed.

Lemma bc_core : exists b edges (P : Z -> selt -> nat -> R),
  (forall check fuel, (length (g_elts fg) <= fuel)%nat -> bcAssign check g fg son order fuel = Done b) /\
  StronglySorted Z.lt edges /\ (forall i, In i edges <-> 0 <= i < g_n1 g /\ length (sidesOn g i) = 2%nat) /\ globalDofCount (bc_map b) = length edges /\
  consistent (bc_map b) /\ flatEnumerates (bc_map b) /\
  (forall i, In i edges -> exists A j v0 v1, lowSide g i A j /\ sideRuns A j v1 v0 /\ dualFunction g fg i v0 v1 (P i)) /\
  forall pos u t T q, length u = globalDofCount (bc_map b) -> In t (g_elts fg) -> cornersOf pos t = Some T ->
    let x k := rsum (map (fun p => fst p * P (snd p) t k)%R (combine u edges)) in
    evaluateBc pos b u t q = Some (hdivValue T (comb q x rtValue)) /\ evaluateRbc pos b u t q = Some (hcurlValue T (comb q x ncValue)).
Proof.
  destruct (tables_ok G TR RF OS NE IM ORD) as (t & edges & ET & TO). pose proof TO as (SE & IE & CT & HD & _).
  destruct (all_edges TO (l := order)) as (Es & ME & HE & HF); [intros i I; now apply ORD|].
  set (E := flat_map snd Es). set (nf := length (g_elts fg)). set (nd := length edges).
  assert (DOF : forall i d, In i edges -> zget (t_dofs t) i = Some d -> 0 <= d /\ nth_error edges (Z.to_nat d) = Some i).
  { intros i d I D. destruct (HD i (proj1 (proj1 (IE i) I))) as (d' & D1 & D2). assert (d' = d) by congruence. subst d'. destruct D2 as [(_ & N)|D2]; [contradiction|exact D2]. }
  assert (INE : forall p, In p Es -> In (fst p) edges).
  { intros p I. apply (in_map fst) in I. rewrite ME in I. apply filter_In in I as (_ & Q). destruct (in_dec Z.eq_dec (fst p) edges); [assumption|discriminate]. }
  assert (EOK : forall x, In x E -> entryOk nf nd x).
  { intros x I. apply in_flat_map in I as (p & Ip & I). destruct (HE p Ip) as (d & A & j & v0 & v1 & D1 & D2 & _ & _ & H & _). destruct (H x I) as (Q & y & odd & Cy & Fy). destruct (DOF _ _ (INE p Ip) D1) as (R & N).
    split; [rewrite Fy; apply (face_range G RF odd Cy)|]. rewrite Q. assert (nth_error edges (Z.to_nat d) <> None) as NN by congruence. apply nth_error_Some in NN. unfold nd. lia. }
  destruct (addAll_ok (state_init nf nd) EOK) as (st & OS1 & ST). cbn [app] in ST.
  destruct (finish_ok ST EOK) as (GC & CO & FL & ROWS).
  set (P := fun i (tt : selt) k => match find (fun p => fst p =? i) Es with Some p => phi (snd p) (s_index tt) k | None => 0%R end).
  assert (NDE : NoDup (map fst Es)) by (rewrite ME; now apply NoDup_filter).
  assert (PF : forall p, In p Es -> find (fun p' => fst p' =? fst p) Es = Some p).
  { clear -NDE. induction Es as [|p0 Es' IH]; intros p I; [destruct I|]. cbn [map] in NDE. inversion NDE as [|? ? NI ND']. cbn [find]. destruct I as [->|I].
    - now rewrite Z.eqb_refl.
    - destruct (Z.eqb_spec (fst p0) (fst p)) as [Q|Q]; [exfalso; apply NI; rewrite Q; now apply in_map|]. now apply IH. }
  exists (finish st), edges, P. split; [|split; [exact SE|split; [exact IE|split; [exact GC|split; [exact CO|split; [exact FL|split]]]]]].
  - intros check fuel FU. unfold bcAssign. rewrite ET. cbn [access]. rewrite CT, Nat2Z.id. fold nf nd. rewrite (HF check fuel _ st FU OS1). reflexivity.
  - intros i I. assert (J : In i (map fst Es)). { rewrite ME. apply filter_In. split; [apply ORD; now apply IE|]. destruct (in_dec Z.eq_dec i edges); [reflexivity|contradiction]. }
    apply in_map_iff in J as (p & <- & J). destruct (HE p J) as (d & A & j & v0 & v1 & _ & _ & X1 & X2 & _ & X3). exists A, j, v0, v1. split; [exact X1|]. split; [exact X2|].
    unfold P. rewrite (PF p J). exact X3.
  - intros pos u tt T q LU It CT' x.
    assert (FR : 0 <= s_index tt < Z.of_nat nf) by (apply (proj1 (proj2 (FG RF)) tt It)).
    destruct (ROWS _ FR) as (R1 & R2 & R3). set (row := rowOf E (s_index tt)) in *.
    assert (RN : row <> []) by (unfold row, rowOf; destruct (row_ E (s_index tt)); discriminate).
    destruct (@local_coefficients (bc_map (finish st)) u (s_index tt) CO LU) as (cs & EC & HC).
    { destruct row as [|e0 row0] eqn:ER; [contradiction|]. exists (en_w e0), (map en_w row). rewrite ER. split; [exact R2|reflexivity]. }
    assert (HN : forall j e, nth_error row j = Some e -> nth_error cs j = Some (coefficient u (en_dof e) * en_w e)%R).
    { intros j e J. apply HC; [exists (map en_dof row); split; [exact R1|]|exists (map en_w row); split; [exact R2|]]; rewrite nth_error_map, J; reflexivity. }
    assert (LC : (length row <= length cs)%nat).
    { destruct (Nat.le_gt_cases (length row) (length cs)) as [L|L]; [exact L|]. exfalso. destruct (nth_error row (length cs)) as [e|] eqn:J; [|apply nth_error_None in J; lia]. specialize (HN _ _ J). assert (nth_error cs (length cs) <> None) as NN by congruence. apply nth_error_Some in NN. lia. }
    assert (SX : forall k, S_ (map en_col row) cs (length row) k = x k).
    { intro k. transitivity (rsum (map (fun e => coefficient u (en_dof e) * (en_w e * kOf (en_col e) k))%R row)).
      - unfold S_. transitivity (rsum (map (fun j => nth j (map (fun e => coefficient u (en_dof e) * (en_w e * kOf (en_col e) k))%R row) 0%R) (seq 0 (length row)))).
        + apply rsum_map_ext. intros j J. apply in_seq in J. destruct (nth_error row j) as [e|] eqn:Je; [|apply nth_error_None in Je; lia].
          rewrite (nth_error_nth _ _ _ (HN _ _ Je)). rewrite (nth_error_nth (map en_col row) j (Col 0 0 0) (x := en_col e)) by (rewrite nth_error_map, Je; reflexivity).
          rewrite (nth_error_nth (map (fun e => coefficient u (en_dof e) * (en_w e * kOf (en_col e) k))%R row) j 0%R (x := (coefficient u (en_dof e) * (en_w e * kOf (en_col e) k))%R)) by (rewrite nth_error_map, Je; reflexivity). ring.
        + f_equal. generalize (fun e => (coefficient u (en_dof e) * (en_w e * kOf (en_col e) k))%R). clear. intro h. induction row as [|e r IH]; [reflexivity|]. cbn [length seq map nth]. f_equal. rewrite <- seq_shift, map_map. exact IH.
      - transitivity (rsum (map (fun e => coefficient u (en_dof e) * (en_w e * kOf (en_col e) k))%R (row_ E (s_index tt)))).
        { unfold row, rowOf. destruct (row_ E (s_index tt)) as [|e r]; [|reflexivity]. cbn. unfold coefficient. cbn. lra. }
        rewrite rsum_row. unfold E.
        transitivity (rsum (map (fun i => coefficient u (match zget (t_dofs t) i with Some d => d | None => 0 end) * P i tt k)%R (map fst Es))).
        + rewrite map_map. assert (SUB : forall L, incl L Es -> rsum (map (fun e => if en_face e =? s_index tt then coefficient u (en_dof e) * (en_w e * kOf (en_col e) k) else 0)%R (flat_map snd L)) =
             rsum (map (fun p => coefficient u (match zget (t_dofs t) (fst p) with Some d => d | None => 0 end) * P (fst p) tt k)%R L)).
          { induction L as [|p L IH]; intro SUB; [reflexivity|]. cbn [flat_map map]. rewrite map_app, rsum_app, IH by (intros z Z; apply SUB; now right). cbn [rsum fold_right]. f_equal.
            assert (Ip : In p Es) by (apply SUB; now left). unfold P. rewrite (PF p Ip). destruct (HE p Ip) as (d & A & j & v0 & v1 & D1 & _ & _ & _ & H & _). rewrite D1. unfold phi. rewrite <- rsum_row with (E := snd p).
            clear -H. assert (Q : forall e, In e (row_ (snd p) (s_index tt)) -> en_dof e = d) by (intros e I; apply filter_In in I as (I & _); now apply H). revert Q. generalize (row_ (snd p) (s_index tt)). intro l. induction l as [|e l IH]; intro Q; cbn; [lra|].
            unfold rsum in IH. rewrite IH by (intros; apply Q; now right). rewrite (Q e (or_introl eq_refl)). ring. }
          apply SUB. apply incl_refl.
        + assert (PM : Permutation (map fst Es) edges).
          { apply NoDup_Permutation; [exact NDE|now apply SS_NoDup|]. intro i. rewrite ME, filter_In. split.
            - intros (_ & Q). destruct (in_dec Z.eq_dec i edges); [assumption|discriminate].
            - intro I. split; [apply ORD; now apply IE|]. destruct (in_dec Z.eq_dec i edges); [reflexivity|contradiction]. }
          rewrite (rsum_perm (Permutation_map _ PM)). unfold x.
          assert (LE : length u = length edges) by (rewrite LU; exact GC).
          assert (GEN : forall es us, length us = length es -> (forall j i, nth_error es j = Some i -> exists c, nth_error us j = Some c /\ coefficient u (match zget (t_dofs t) i with Some d => d | None => 0 end) = c) ->
             rsum (map (fun i => coefficient u (match zget (t_dofs t) i with Some d => d | None => 0 end) * P i tt k)%R es) = rsum (map (fun p => fst p * P (snd p) tt k)%R (combine us es))).
          { induction es as [|i es IH]; intros [|c us] L H; try discriminate; [reflexivity|]. cbn [map combine rsum fold_right fst snd]. destruct (H 0%nat i eq_refl) as (c' & C1 & C2). cbn in C1. injection C1 as <-. rewrite C2. f_equal.
            apply IH; [cbn in L; lia|]. intros j i' J. apply (H (S j) i' J). }
          apply GEN; [exact LE|]. intros j i J. destruct (nth_error u j) as [c|] eqn:Uj; [|apply nth_error_None in Uj; assert (nth_error edges j <> None) as NN by congruence; apply nth_error_Some in NN; lia].
          exists c. split; [reflexivity|]. assert (I : In i edges) by (eapply nth_error_In; exact J). destruct (HD i (proj1 (proj1 (IE i) I))) as (d & D1 & _). rewrite D1. destruct (DOF i d I D1) as (D2 & D3).
          assert (Z.to_nat d = j) by (eapply (proj1 (NoDup_nth_error edges) (SS_NoDup SE)); [apply nth_error_Some; congruence|congruence]). unfold coefficient. destruct (Z.leb_spec 0 d); [|lia]. rewrite H. now apply nth_error_nth. }
    unfold evaluateBc, evaluateRbc. rewrite CT'. cbn [obind]. rewrite EC. cbn [obind]. rewrite R3. cbn [obind]. rewrite map_length. rewrite sum_bc, sum_rbc by exact LC.
    split; do 2 f_equal; [unfold hdivValue|unfold hcurlValue]; unfold comb; rewrite !SX; reflexivity.
Qed.
End All.
