From Coq Require Import Reals ZArith List Bool Arith Lia Permutation Lra.
Import ListNotations.
From Verif Require Import Base ArrayModel BoxModel QuadModel AccModel AsmModel AsmSpec AsmProofs DofListModel DofListSpec DofListProofs HBlockModel HBlockProofs
  NumIntModel NumIntSpec NumIntProps LocalCacheProofs PotAsmModel PotAsmSpec PotAsmProofs.
Set Implicit Arguments.
Unset Strict Implicit.

Lemma mapRes_map A B (f : A -> res B) h l : (forall a, In a l -> f a = Ok (h a)) -> mapRes f l = Ok (map h l).
Proof.
  induction l as [|a l IH]; intros H; [reflexivity|]. apply mapRes_cons. exists (h a), (map h l). split; [apply H; now left|]. split; [|reflexivity]. apply IH. intros; apply H; now right.
Qed.
Lemma mapRes_indexed A B (f : nat -> A -> res B) h l : forall k, (forall n a, nth_error l n = Some a -> f (k + n) a = Ok (h a)) ->
  mapRes (fun p => f (fst p) (snd p)) (combine (seq k (length l)) l) = Ok (map h l).
Proof.
  induction l as [|a l IH]; intros k H; [reflexivity|]. cbn [length seq combine map]. apply mapRes_cons. exists (h a), (map h l). cbn [fst snd].
  split; [specialize (H 0 a eq_refl); now rewrite Nat.add_0_r in H|]. split; [|reflexivity]. apply IH. intros n b E. specialize (H (S n) b E). now rewrite Nat.add_succ_r in H.
Qed.
Lemma F2_nth_l A B (P : A -> B -> Prop) l m n a : Forall2 P l m -> nth_error l n = Some a -> exists b, nth_error m n = Some b /\ P a b.
Proof.
  intros F. revert n. induction F as [|x y l m H F IH]; intros [|n] E; try discriminate; cbn in *; [injection E as ->; eauto|]. now apply IH.
Qed.
(** no empty groups *)
Lemma mset_nonempty Kt W (cmp : Kt -> Kt -> comparison) k (v : W) m : mset cmp k v m <> [].
Proof. destruct m as [|[k' v'] m]; cbn; [discriminate|]. destruct (cmp k k'); discriminate. Qed.
Lemma mset_values Kt W (cmp : Kt -> Kt -> comparison) (P : W -> Prop) k v m : P v -> (forall k' w, In (k', w) m -> P w) -> forall k' w, In (k', w) (mset cmp k v m) -> P w.
Proof.
  intros Pv. induction m as [|[k1 v1] m IH]; intros H k' w Hin; cbn in Hin.
  - destruct Hin as [[= <- <-]|[]]. exact Pv.
  - destruct (cmp k k1); cbn in Hin.
    + destruct Hin as [[= <- <-]|Hin]; [exact Pv|]. eapply H; right; eauto.
    + destruct Hin as [[= <- <-]|Hin]; [exact Pv|]. eapply H; eauto.
    + destruct Hin as [[= <- <-]|Hin]; [eapply H; now left|]. eapply IH; eauto. intros; eapply H; right; eauto.
Qed.
Lemma lists_nonempty (K : star_ring) (U : space K) p2o start count L : getLists U p2o start count = Some L -> forall e grp, In (e, grp) (dl_groups L) -> grp <> [].
Proof.
  unfold getLists. destruct (count =? 1).
  - unfold findLocalDofsSingle. destruct (nth_error p2o start); [|discriminate]. destruct (sp_g2l U n); [|discriminate]. intros [= <-] e grp H. cbn in H.
    apply in_map_iff in H. destruct H as ([[e' i] w] & [= <- <-] & _). discriminate.
  - unfold findLocalDofsRange. destruct (originalIndices p2o start count); [|discriminate]. destruct (DofListModel.mapM (sp_g2l U) l) as [lds|]; [|discriminate]. intros [= <-] e grp H. cbn [dl_groups] in H.
    apply in_map_iff in H. destruct H as ([e' g'] & [= <- <-] & H).
    match type of H with In _ (fold_left _ ?ins _) => set (xs := ins) in H end.
    assert (G : forall xs m, (forall k w, In (k, w) m -> w <> []) -> forall k w, In (k, w) (fold_left require xs m) -> w <> (@nil (nat * nat * K))).
    { clear. induction xs as [|[[[e l] w] a] xs IH]; intros m H; [exact H|]. cbn [fold_left]. apply IH. unfold require.
      apply mset_values; [apply mset_nonempty|exact H]. }
    cbn [snd]. specialize (G xs [] ltac:(intros ? ? []) e' g' H). destruct g'; [congruence|discriminate].
Qed.
Lemma comps_nonempty p2o comps start count L : getComponents p2o comps start count = Some L -> forall p grp, In (p, grp) L -> grp <> [].
Proof.
  unfold getComponents. destruct (count =? 1).
  - unfold findComponentsSingle. destruct (comps =? 0); [discriminate|]. destruct (nth_error p2o start); [|discriminate]. intros [= <-] p grp [[= <- <-]|[]]. discriminate.
  - unfold findComponentsRange. destruct (comps =? 0).
    { destruct (count =? 0); [|discriminate]. intros [= <-] p grp []. }
    destruct (originalIndices p2o start count) as [orig|]; [|discriminate]. intros [= <-] p grp H. apply in_map_iff in H. destruct H as ([p' g'] & [= <- <-] & H).
    match type of H with In _ (fold_left _ ?ins _) => set (xs := ins) in H end.
    assert (G : forall xs m, (forall k w, In (k, w) m -> w <> []) -> forall k w, In (k, w) (fold_left requireComp xs m) -> w <> (@nil (nat * nat * unit))).
    { clear. induction xs as [|[[q c] i] xs IH]; intros m H; [exact H|]. cbn [fold_left]. apply IH. unfold requireComp.
      apply mset_values; [apply mset_nonempty|exact H]. }
    cbn [snd]. specialize (G xs [] ltac:(intros ? ? []) p' g' H). destruct g'; [congruence|discriminate].
Qed.

Section Block.
  Variable K : star_ring.
  Variables Xl Bd Sh : Type.
  Variable sh_dec : forall a b : Sh, {a = b} + {a <> b}.
  Variable I : ingredients K Xl Bd Sh.
  Hypothesis WM : wellMade I.
  Hypothesis CS : consistentShapesets I.
  Variable ranges : list bracket.
  Variable g : sgeom.
  Variable rules : sdesc -> rule K Xl.
  Hypothesis nonempty : forall d, rules d <> [].
  Variable order1 : list sdesc -> list sdesc.
  Variable order2 : list (sdesc * Sh) -> list (sdesc * Sh).
  Hypothesis O1 : enumeratesSet order1.
  Hypothesis O2 : enumeratesSet order2.
  Variable fresh : mat K.
  Variable U : space K.
  Variable nominal : R.
  Variable chosen : nat -> nat -> sdesc.
  Hypothesis choice : forall i x e, nth_error (in_points I) i = Some x -> e < length (sp_dofs U) -> pDescriptor ranges g x e nominal = Ok (chosen i e).
  Hypothesis sizes : forall e, e < length (sp_dofs U) -> in_dofs I (in_shapeset I e) = length (nth e (sp_dofs U) []).

  Definition P (i e k j : nat) : K :=
    match nth_error (in_points I) i with Some x => localPotential I (rules (chosen i e)) x e None j k | None => zero end.

  Lemma overPoints_ok (LC : compLists) f (h : nat -> nat -> nat -> nat * nat * K) :
    (forall n p grp k row, nth_error LC n = Some (p, grp) -> In (k, row) grp -> f n k row = Ok (h p k row)) ->
    overPoints LC f = Ok (flat_map (fun gp => map (fun x => let '(k, row) := x in h (fst gp) k row) (snd gp)) LC).
  Proof.
    intros H. unfold overPoints.
    rewrite (@mapRes_indexed _ _ (fun n gp => mapRes (fun x => f n (fst x) (snd x)) (snd gp)) (fun gp => map (fun x => let '(k, row) := x in h (fst gp) k row) (snd gp)) LC 0).
    - cbn [bind]. now rewrite flat_map_concat_map.
    - intros n [p grp] E. cbn [plus snd fst]. apply mapRes_map. intros [k row] Hin. cbn [fst snd]. eapply H; eauto.
  Qed.
  Lemma overDofs_ok (LU : dofLists K) f (h : nat -> nat -> K -> nat -> list (nat * nat * K)) :
    (forall n e grp j v col, nth_error (dl_groups LU) n = Some (e, grp) -> In (j, v, col) grp -> f n e j v col = Ok (h e j v col)) ->
    overDofs LU f = Ok (flat_map (fun gu => flat_map (fun y => let '(j, v, col) := y in h (fst gu) j v col) (snd gu)) (dl_groups LU)).
  Proof.
    intros H. unfold overDofs.
    rewrite (@mapRes_indexed _ _ (fun n gu => bind (mapRes (fun y => let '(j, v, col) := y in f n (fst gu) j v col) (snd gu)) (fun l => Ok (concat l)))
       (fun gu => flat_map (fun y => let '(j, v, col) := y in h (fst gu) j v col) (snd gu)) (dl_groups LU) 0).
    - cbn [bind]. now rewrite flat_map_concat_map.
    - intros n [e grp] E. cbn [plus snd fst]. rewrite (@mapRes_map _ _ _ (fun y => let '(j, v, col) := y in h e j v col)).
      + cbn [bind]. now rewrite flat_map_concat_map.
      + intros [[j v] col] Hin. eapply H; eauto.
  Qed.

  Definition goodLC (LC : compLists) : Prop := (forall p grp, In (p, grp) LC -> p < length (in_points I)) /\ forall p grp k row, In (p, grp) LC -> In (k, row) grp -> k < in_components I.
  Definition goodLU (LU : dofLists K) : Prop := (forall e grp, In (e, grp) (dl_groups LU) -> e < length (sp_dofs U)) /\
    forall e grp j v col, In (e, grp) (dl_groups LU) -> In (j, v, col) grp -> j < length (nth e (sp_dofs U) []).

  Lemma can i e : i < length (in_points I) -> e < length (sp_dofs U) -> canChoose I ranges g rules nominal i e.
  Proof.
    intros Hi He. destruct (nth_error (in_points I) i) as [x|] eqn:E; [|apply nth_error_None in E; lia].
    exists x, (rules (chosen i e)). split; [exact E|]. exists (chosen i e). split; [now apply choice|reflexivity].
  Qed.
  Lemma contrib_value sel i e m k j : e < length (sp_dofs U) -> contribution I ranges g rules nominal sel i e m -> k < in_components I -> j < in_dofs I (in_shapeset I e) ->
    match sel with
    | Some j' => j' = j -> entryOf m k 0 = Ok (P i e k j)
    | None => entryOf m k j = Ok (P i e k j)
    end.
  Proof.
    intros He (x & r & (EX & d & D & ->) & A1 & A2 & A3) Hk Hj. rewrite (choice EX He) in D. injection D as <-.
    unfold P. rewrite EX. unfold selectedDofs in *. destruct sel as [j'|].
    - intros ->. unfold entryOf. rewrite A1, A2. rewrite (proj2 (Nat.ltb_lt _ _) Hk). cbn [andb Nat.ltb Nat.leb]. rewrite A3 by lia. f_equal.
      unfold localPotential. apply bsum_ext. intros xw _. now rewrite CS.
    - unfold entryOf. rewrite A1, A2, (proj2 (Nat.ltb_lt _ _) Hk), (proj2 (Nat.ltb_lt _ _) Hj). cbn [andb]. now rewrite A3.
  Qed.
  Lemma column_ok LC LU : goodLC LC -> goodLU LU -> columnCalls I ranges g rules order1 fresh LC LU nominal = Ok (pColumn P LC LU).
  Proof.
    intros [C1 C2] [D1 D2]. unfold columnCalls, pColumn.
    rewrite (@overDofs_ok LU _ (fun e j v _ => flat_map (fun gp => map (fun x => let '(k, row) := x in (row, 0, mul v (P (fst gp) e k j))) (snd gp)) LC)); [reflexivity|].
    intros n e grp j v col En Hin. pose proof (nth_error_In _ _ En) as He.
    destruct (@evaluatePoints_total K Xl Bd Sh I WM ranges g rules nonempty order1 O1 fresh (map fst LC) e (Some j) [] nominal) as (ms & E).
    { intros i Hi. apply in_map_iff in Hi. destruct Hi as ([p gr] & <- & Hp). apply can; [eapply C1; eauto|eapply D1; eauto]. }
    rewrite E. cbn [bind]. pose proof (@evaluatePoints_sound K Xl Bd Sh I WM ranges g rules nonempty order1 O1 fresh _ _ _ _ _ _ E) as F.
    rewrite (@overPoints_ok LC _ (fun p k row => (row, 0, mul v (P p e k j)))); [reflexivity|].
    intros m p gr k row Em Hk. assert (Em' : nth_error (map fst LC) m = Some p) by now rewrite (map_nth_error fst _ _ Em).
    destruct (F2_nth_l F Em') as (mm & E1 & E2). unfold nthRes. rewrite E1. cbn [bind].
    rewrite (@contrib_value (Some j) p e mm k j); [reflexivity| | exact E2 | | | reflexivity].
    - eapply D1; eauto.
    - eapply C2; eauto. eapply nth_error_In; eauto.
    - rewrite sizes by (eapply D1; eauto). eapply D2; eauto.
  Qed.
  Lemma row_ok LC LU us : goodLC LC -> goodLU LU -> pRow P LC LU = Some us -> rowCalls sh_dec I ranges g rules order2 fresh LC LU nominal = Ok us.
  Proof.
    intros [C1 C2] [D1 D2]. unfold pRow, rowCalls. destruct LC as [|[p [|[k row] gr]] LC]; try discriminate. intros [= <-].
    assert (Hp : p < length (in_points I)) by (eapply C1; left; reflexivity). assert (Hk : k < in_components I) by (eapply C2; [left; reflexivity|left; reflexivity]).
    destruct (@evaluateElements_total K Xl Bd Sh sh_dec I WM ranges g rules nonempty order2 O2 fresh p (Some k) (map fst (dl_groups LU)) [] nominal) as (ms & E).
    { intros e He. apply in_map_iff in He. destruct He as ([e' g'] & <- & He). apply can; [exact Hp|]. eapply D1; eauto. }
    rewrite E. cbn [bind]. pose proof (@evaluateElements_sound K Xl Bd Sh sh_dec I WM ranges g rules nonempty order2 O2 fresh _ _ _ _ _ _ E) as F.
    rewrite (@overDofs_ok LU _ (fun e j v col => [(0, col, mul v (P p e k j))])).
    - f_equal. apply flat_map_ext. intros [e grp]. cbn [fst snd]. induction grp as [|[[j v] col] grp IH]; [reflexivity|]. cbn. now rewrite IH.
    - intros n e grp j v col En Hin. pose proof (nth_error_In _ _ En) as He.
      assert (En' : nth_error (map fst (dl_groups LU)) n = Some e) by now rewrite (map_nth_error fst _ _ En).
      destruct (F2_nth_l F En') as (mm & E1 & E2). specialize (E2 Hk). unfold nthRes. rewrite E1. cbn [bind].
      destruct E2 as (x & r & (EX & d & D & ->) & A1 & A2 & A3). assert (He' : e < length (sp_dofs U)) by (eapply D1; eauto).
      rewrite (choice EX He') in D. injection D as <-. assert (Hj : j < in_dofs I (in_shapeset I e)) by (rewrite sizes by exact He'; eapply D2; eauto).
      unfold entryOf. rewrite A1, A2. change (j < selectedDofs I e None) in Hj. rewrite (proj2 (Nat.ltb_lt _ _) Hj). cbn [Nat.ltb Nat.leb andb bind]. rewrite A3 by exact Hj. unfold P. now rewrite EX.
  Qed.
  Lemma allPairs_nth pts es np ne i e : nth_error pts np = Some i -> nth_error es ne = Some e -> nth_error (allPairs pts es) (np + length pts * ne) = Some (i, e).
  Proof.
    intros Ei. revert ne. induction es as [|e0 es IH]; intros [|ne] Ee; try discriminate; unfold allPairs; cbn [flat_map].
    - cbn in Ee. injection Ee as ->. rewrite Nat.mul_0_r, Nat.add_0_r. rewrite nth_error_app1 by (rewrite map_length; apply nth_error_Some; congruence).
      now rewrite (map_nth_error _ _ _ Ei).
    - rewrite nth_error_app2 by (rewrite map_length; lia). rewrite map_length.
      replace (np + length pts * S ne - length pts) with (np + length pts * ne) by lia. now apply IH.
  Qed.
  Lemma fat_ok LC LU : goodLC LC -> goodLU LU -> fatCalls sh_dec I ranges g rules order2 fresh LC LU nominal = Ok (pFat P LC LU).
  Proof.
    intros [C1 C2] [D1 D2]. unfold fatCalls, pFat.
    destruct (@evaluatePairs_total K Xl Bd Sh sh_dec I WM ranges g rules nonempty order2 O2 fresh (map fst LC) (map fst (dl_groups LU)) [] nominal) as (ms & E).
    { intros i e Hi He. apply in_map_iff in Hi. destruct Hi as ([p gr] & <- & Hp). apply in_map_iff in He. destruct He as ([e' g'] & <- & He).
      apply can; [eapply C1; eauto|eapply D1; eauto]. }
    rewrite E. cbn [bind]. pose proof (@evaluatePairs_sound K Xl Bd Sh sh_dec I WM ranges g rules nonempty order2 O2 fresh _ _ _ _ _ E) as F.
    rewrite (@overDofs_ok LU _ (fun e j v col => flat_map (fun gp => map (fun x => let '(k, row) := x in (row, col, mul v (P (fst gp) e k j))) (snd gp)) LC)); [reflexivity|].
    intros n e grp j v col En Hin. pose proof (nth_error_In _ _ En) as He.
    rewrite (@overPoints_ok LC _ (fun p k row => (row, col, mul v (P p e k j)))); [reflexivity|].
    intros m p gr k row Em Hk. assert (Em' : nth_error (map fst LC) m = Some p) by now rewrite (map_nth_error fst _ _ Em).
    assert (En' : nth_error (map fst (dl_groups LU)) n = Some e) by now rewrite (map_nth_error fst _ _ En).
    pose proof (allPairs_nth Em' En') as Epn. rewrite map_length in Epn.
    destruct (F2_nth_l F Epn) as (mm & E1 & E2). unfold nthRes. rewrite E1. cbn [bind fst snd] in *.
    rewrite (@contrib_value None p e mm k j); [reflexivity| | exact E2 | |].
    - eapply D1; eauto.
    - eapply C2; eauto. eapply nth_error_In; eauto.
    - rewrite sizes by (eapply D1; eauto). eapply D2; eauto.
  Qed.

  Theorem potentialBlock_ok pR pU r0 r1 c0 c1 :
    g2lInverse U -> validPerm U pU -> 0 < in_components I -> (forall o, In o pR -> o < length (in_points I) * in_components I) ->
    r0 <= r1 <= length pR -> c0 <= c1 <= length pU ->
    exists m, potentialBlock sh_dec I ranges g rules order1 order2 fresh U pR pU nominal r0 r1 c0 c1 = Ok m /\ m_rows m = r1 - r0 /\ m_cols m = c1 - c0 /\
      forall r c, r < r1 - r0 -> c < c1 - c0 ->
        m_at m r c = potential U P (nth (r0 + r) pR 0 / in_components I) (nth (r0 + r) pR 0 mod in_components I) (nth (c0 + c) pU 0).
  Proof.
    intros GU VU Hc HR Hr Hcc. destruct (@potential_block_ok K U pR pU (in_components I) P r0 r1 c0 c1 GU VU Hc Hr Hcc) as (m & E & R1 & R2 & R3).
    exists m. split; [|auto]. revert E. unfold computePotentialBlock, potentialBlock. destruct ((r1 <? r0) || (c1 <? c0)); [discriminate|]. cbv zeta.
    destruct (@getComponents_ok pR (in_components I) r0 (r1 - r0) Hc ltac:(lia)) as (LC & EC & PC & _).
    destruct (@getLists_ok K U pU c0 (c1 - c0) GU VU ltac:(lia)) as (LU & EU & _ & PU). rewrite EC, EU.
    assert (IC : forall p gr k a, In (p, gr) LC -> In (k, a) gr -> exists o, In o pR /\ p = o / in_components I /\ k = o mod in_components I).
    { intros p gr k a H1 H2. assert (Hin : In (p, k, a) (centries LC)) by (unfold centries; apply in_flat_map; exists (p, gr); split; [exact H1|]; apply in_map_iff; exists (k, a); auto).
      apply (Permutation_in _ PC) in Hin. unfold cwanted in Hin. apply in_map_iff in Hin. destruct Hin as (i & [= <- <- <-] & Hi). apply in_seq in Hi.
      exists (nth (r0 + i) pR 0). split; [apply nth_In; lia|]. auto. }
    assert (IU : forall e gr j v a, In (e, gr) (dl_groups LU) -> In (j, v, a) gr -> e < length (sp_dofs U) /\ j < length (nth e (sp_dofs U) [])).
    { intros e gr j v a H1 H2. assert (Hin : In (e, j, v, a) (entries LU)) by (unfold entries; apply in_flat_map; exists (e, gr); split; [exact H1|]; apply in_map_iff; exists (j, v, a); auto).
      apply (Permutation_in _ PU) in Hin. unfold wanted in Hin. apply in_flat_map in Hin. destruct Hin as (b & Hb & Hin). apply in_map_iff in Hin.
      destruct Hin as ([[e' i'] w'] & [= -> -> -> ->] & Hs). apply in_support in Hs. destruct Hs as (ds & N1 & N2).
      split; [apply nth_error_Some; congruence|]. rewrite (nth_error_nth _ _ [] N1). apply nth_error_Some. congruence. }
    assert (GC : goodLC LC).
    { split.
      - intros p gr H. pose proof (comps_nonempty EC H) as NE. destruct gr as [|[k a] gr]; [congruence|]. destruct (IC p _ k a H (or_introl eq_refl)) as (o & Ho & -> & _).
        apply HR in Ho. apply Nat.div_lt_upper_bound; lia.
      - intros p gr k a H1 H2. destruct (IC p gr k a H1 H2) as (o & _ & _ & ->). apply Nat.mod_upper_bound. lia. }
    assert (GL : goodLU LU).
    { split.
      - intros e gr H. pose proof (lists_nonempty EU H) as NE. destruct gr as [|[[j v] a] gr]; [congruence|]. eapply IU; [exact H|now left].
      - intros e gr j v a H1 H2. eapply IU; eauto. }
    destruct (c1 - c0 =? 1).
    - rewrite (column_ok GC GL). cbn [bind]. intros ->. reflexivity.
    - destruct (r1 - r0 =? 1).
      + destruct (pRow P LC LU) as [us|] eqn:ER; [|discriminate]. rewrite (row_ok GC GL ER). cbn [bind]. intros ->. reflexivity.
      + rewrite (fat_ok GC GL). cbn [bind]. intros ->. reflexivity.
  Qed.
End Block.

(** ---- geometry of the rows ---- *)
Lemma skipn_rep A (x : A) c l : skipn c (repeat x c ++ l) = l.
Proof. induction c; [reflexivity|exact IHc]. Qed.
Lemma skipn_rep_S A (x y : A) c l : skipn (S c) (repeat x c ++ y :: l) = l.
Proof. induction c; [reflexivity|exact IHc]. Qed.
Lemma fill_from points comps : 0 < comps -> forall k p c, p <= length points -> c < comps -> (length points - p) * comps - c <= k -> (p = length points -> c = 0) ->
  fillGeometry (S k) points comps (Pgi p c) = Some (skipn c (flat_map (fun x => repeat x comps) (skipn p points))).
Proof.
  intros Hc. induction k as [|k IH]; intros p c Hp Hcc Hk Z.
  - assert (p = length points) by (destruct (Nat.eq_dec p (length points)); [assumption|nia]). subst p. rewrite (Z eq_refl). cbn [fillGeometry pgiNext pg_p].
    unfold pgiNext. cbn [pg_p]. rewrite (proj2 (nth_error_None points (length points))) by lia. now rewrite skipn_all.
  - change (fillGeometry (S (S k)) points comps (Pgi p c)) with (match pgiNext points comps (Pgi p c) with (None, _) => Some [] | (Some x, s') => match fillGeometry (S k) points comps s' with Some l => Some (x :: l) | None => None end end).
    unfold pgiNext. cbn [pg_p pg_c]. destruct (nth_error points p) as [x|] eqn:E.
    + assert (p < length points) by (apply nth_error_Some; congruence).
      assert (SK : skipn p points = x :: skipn (S p) points).
      { clear -E. revert p E. induction points as [|y l IH]; intros [|p] E; try discriminate; cbn in *; [now injection E as ->|]. now apply IH. }
      rewrite SK. cbn [flat_map]. destruct (Nat.eqb_spec c (comps - 1)) as [->|N].
      * rewrite (proj2 (Nat.ltb_lt 0 comps) Hc). cbn [andb]. rewrite IH; try lia; try nia. cbn [skipn]. f_equal.
        assert (RC : repeat x comps = repeat x (comps - 1) ++ [x]) by (replace comps with (comps - 1 + 1) at 1 by lia; now rewrite repeat_app).
        rewrite RC, <- app_assoc. rewrite skipn_app, repeat_length, Nat.sub_diag.
        rewrite skipn_all2 by (rewrite repeat_length; lia). reflexivity.
      * rewrite andb_false_r. rewrite IH; try lia; try nia. rewrite SK. cbn [flat_map]. f_equal.
        assert (RC : repeat x comps = repeat x c ++ x :: repeat x (comps - c - 1)) by (replace comps with (c + S (comps - c - 1)) at 1 by lia; now rewrite repeat_app).
        rewrite RC, <- app_assoc. cbn [app]. now rewrite skipn_rep, skipn_rep_S.
    + apply nth_error_None in E. assert (p = length points) by lia. subst p. rewrite (Z eq_refl), skipn_all. reflexivity.
Qed.

(** ---- volumes ---- *)
Lemma lower_ok vs i v : i < length vs -> exists vs', lower vs (i, v) = Some vs' /\ length vs' = length vs /\
  forall k, nth_error vs' k = if Nat.eqb k i then option_map (fun x => Rmin x v) (nth_error vs k) else nth_error vs k.
Proof.
  intros L. unfold lower. cbn [fst snd]. destruct (nth_error vs i) as [x|] eqn:E; [|apply nth_error_None in E; lia].
  destruct (@upd_Some _ vs i (Rmin x v) L) as (vs' & H). exists vs'. split; [exact H|]. split; [eapply upd_length; eauto|].
  intros k. rewrite (@upd_nth_error _ vs vs' i (Rmin x v) k H). destruct (Nat.eqb_spec k i) as [->|]; [now rewrite E|reflexivity].
Qed.
Lemma lowerAll_ok l : forall vs, (forall i v, In (i, v) l -> i < length vs) -> exists vs', lowerAll vs l = Some vs' /\ length vs' = length vs /\
  forall k x, nth_error vs k = Some x -> exists m, nth_error vs' k = Some m /\ smallest x (map snd (filter (fun iv => Nat.eqb k (fst iv)) l)) m.
Proof.
  induction l as [|[i v] l IH]; intros vs H.
  - exists vs. split; [reflexivity|]. split; [reflexivity|]. intros k x E. exists x. split; [exact E|]. split; [now left|]. split; [lra|]. intros y [].
  - destruct (@lower_ok vs i v) as (vs1 & E1 & L1 & N1); [eapply H; now left|].
    destruct (IH vs1) as (vs2 & E2 & L2 & N2). { intros j w Hin. rewrite L1. eapply H. right. exact Hin. }
    exists vs2. cbn [lowerAll]. rewrite E1. split; [exact E2|]. split; [lia|]. intros k x E. specialize (N1 k). cbn [filter fst].
    destruct (Nat.eqb_spec k i) as [Ek|N].
    + rewrite E in N1. cbn in N1. destruct (N2 _ _ N1) as (m & M1 & M2 & M3 & M4). exists m. split; [exact M1|]. cbn [map snd].
      pose proof (Rmin_l x v) as Ml. pose proof (Rmin_r x v) as Mr. split.
      * destruct M2 as [->|M2]; [|right; right; now rewrite <- ?Ek in *]. destruct (Rle_dec x v); [rewrite Rmin_left by assumption; now left|right; left; rewrite Rmin_right by lra; reflexivity].
      * split; [lra|]. intros y [<-|Hy]; [cbn; lra|]. now apply M4.
    + rewrite E in N1. destruct (N2 _ _ N1) as (m & M). now exists m.
Qed.
