(** C151-C156: assembly of potential operators in H-matrix mode. *)
From Coq Require Import Reals ZArith List Bool Arith Lia Permutation Lra.
Import ListNotations.
From Verif Require Import Base ArrayModel BoxModel QuadModel AccModel AccSpec AccProps AsmModel AsmSpec AsmProofs AsmProps DofListModel DofListSpec DofListProofs CacheProofs
  NumIntModel NumIntSpec PotAsmModel PotAsmSpec PotAsmProofs PotAsmProofs2.
Set Implicit Arguments.
Unset Strict Implicit.

(** C151: whatever points and elements are evaluated together, whatever the order of the batches and whatever was in the
    result before, every pair gets the potential computed by the rule chosen for this pair; and the evaluation succeeds when
    a rule can be chosen for every pair *)
Theorem C151_local_contributions :
  forall (K : star_ring) (Xl Bd Sh : Type) (sh_dec : forall a b : Sh, {a = b} + {a <> b}) (I : ingredients K Xl Bd Sh) ranges g (rules : sdesc -> rule K Xl) order1 order2 fresh nominal,
  wellMade I -> (forall d, rules d <> []) -> enumeratesSet order1 -> enumeratesSet order2 ->
  (forall pts e sel old,
     (forall ms, evaluatePoints I ranges g rules order1 fresh pts e sel old nominal = Ok ms -> Forall2 (fun i m => contribution I ranges g rules nominal sel i e m) pts ms) /\
     ((forall i, In i pts -> canChoose I ranges g rules nominal i e) -> exists ms, evaluatePoints I ranges g rules order1 fresh pts e sel old nominal = Ok ms)) /\
  (forall i c es old, c < in_components I ->
     (forall ms, evaluateElements sh_dec I ranges g rules order2 fresh i (Some c) es old nominal = Ok ms -> Forall2 (fun e m => contributionRow I ranges g rules nominal c i e m) es ms) /\
     ((forall e, In e es -> canChoose I ranges g rules nominal i e) -> exists ms, evaluateElements sh_dec I ranges g rules order2 fresh i (Some c) es old nominal = Ok ms)) /\
  (forall i es old,
     (forall ms, evaluateElements sh_dec I ranges g rules order2 fresh i None es old nominal = Ok ms -> Forall2 (fun e m => contribution I ranges g rules nominal None i e m) es ms) /\
     ((forall e, In e es -> canChoose I ranges g rules nominal i e) -> exists ms, evaluateElements sh_dec I ranges g rules order2 fresh i None es old nominal = Ok ms)) /\
  (forall pts es old,
     (forall ms, evaluatePairs sh_dec I ranges g rules order2 fresh pts es old nominal = Ok ms ->
        length ms = length pts * length es /\
        forall np ne i e, nth_error pts np = Some i -> nth_error es ne = Some e ->
          exists m, nth_error ms (np + length pts * ne) = Some m /\ contribution I ranges g rules nominal None i e m) /\
     ((forall i e, In i pts -> In e es -> canChoose I ranges g rules nominal i e) -> exists ms, evaluatePairs sh_dec I ranges g rules order2 fresh pts es old nominal = Ok ms)).
Proof.
  intros K Xl Bd Sh sh_dec I ranges g rules order1 order2 fresh nominal WM NE O1 O2. split; [|split; [|split]].
  - intros pts e sel old. split; [intros ms E; eapply evaluatePoints_sound; eauto | intros H; eapply evaluatePoints_total; eauto].
  - intros i c es old Hc. split.
    + intros ms E. pose proof (@evaluateElements_sound K Xl Bd Sh sh_dec I WM ranges g rules NE order2 O2 fresh _ _ _ _ _ _ E) as F. cbn in F.
      clear E. induction F; constructor; auto.
    + intros H. eapply evaluateElements_total; eauto.
  - intros i es old. split; [|intros H; eapply evaluateElements_total; eauto].
    intros ms E. exact (@evaluateElements_sound K Xl Bd Sh sh_dec I WM ranges g rules NE order2 O2 fresh _ _ _ _ _ _ E).
  - intros pts es old. split; [|intros H; eapply evaluatePairs_total; eauto].
    intros ms E. pose proof (@evaluatePairs_sound K Xl Bd Sh sh_dec I WM ranges g rules NE order2 O2 fresh _ _ _ _ _ E) as F. split.
    + rewrite <- (F2_len F). clear. unfold allPairs. induction es as [|e es IH]; [cbn; lia|]. cbn [flat_map]. rewrite app_length, map_length, IH. cbn [length]. lia.
    + intros np ne i e Hp He. destruct (F2_nth_l F (allPairs_nth Hp He)) as (m & E1 & E2). now exists m.
Qed.
(** the map of integrators shared by all threads: any number of concurrent requests in any interleaving get live integrators
    of the right rule, equal requests the same one, and nothing leaks *)
Theorem C151_integrators : forall (K : star_ring) (Xl Bd Sh : Type) (I : ingredients K Xl Bd Sh) (rules : sdesc -> rule K Xl) (requests : list sdesc),
  cacheTransparent (fun a b => if sdesc_dec a b then true else false) (fun d => integratorOf I (rules d)) requests.
Proof. intros. apply cache_transparent. intros a b. destruct (sdesc_dec a b); split; congruence. Qed.

(** C152: every block of the accessor, on its three paths, holds the potential of the dofs: row o of the operator is
    component o mod n of point o / n *)
Theorem C152_potential_blocks :
  forall (K : star_ring) (Xl Bd Sh : Type) (sh_dec : forall a b : Sh, {a = b} + {a <> b}) (I : ingredients K Xl Bd Sh) ranges g (rules : sdesc -> rule K Xl) order1 order2 fresh
         (U : space K) nominal (chosen : nat -> nat -> sdesc) pR pU r0 r1 c0 c1,
  wellMade I -> consistentShapesets I -> (forall d, rules d <> []) -> enumeratesSet order1 -> enumeratesSet order2 ->
  (forall i x e, nth_error (in_points I) i = Some x -> e < length (sp_dofs U) -> pDescriptor ranges g x e nominal = Ok (chosen i e)) ->
  (forall e, e < length (sp_dofs U) -> in_dofs I (in_shapeset I e) = length (nth e (sp_dofs U) [])) ->
  g2lInverse U -> validPerm U pU -> 0 < in_components I -> (forall o, In o pR -> o < length (in_points I) * in_components I) ->
  r0 <= r1 <= length pR -> c0 <= c1 <= length pU ->
  exists m, potentialBlock sh_dec I ranges g rules order1 order2 fresh U pR pU nominal r0 r1 c0 c1 = Ok m /\ m_rows m = r1 - r0 /\ m_cols m = c1 - c0 /\
    forall r c, r < r1 - r0 -> c < c1 - c0 ->
      let o := nth (r0 + r) pR 0 in let i := o / in_components I in let k := o mod in_components I in
      exists x, nth_error (in_points I) i = Some x /\
      m_at m r c = bsum (support U (nth (c0 + c) pU 0)) (fun y => let '(e, j, v) := y in mul v (localPotential I (rules (chosen i e)) x e None j k)).
Proof.
  intros K Xl Bd Sh sh_dec I ranges g rules order1 order2 fresh U nominal chosen pR pU r0 r1 c0 c1 WM CS NE O1 O2 CH SZ GU VU Hn HR Hr Hc.
  destruct (@potentialBlock_ok K Xl Bd Sh sh_dec I WM CS ranges g rules NE order1 order2 O1 O2 fresh U nominal chosen CH SZ pR pU r0 r1 c0 c1 GU VU Hn HR Hr Hc) as (m & E & R1 & R2 & R3).
  exists m. split; [exact E|]. split; [exact R1|]. split; [exact R2|]. intros r c Lr Lc. cbv zeta.
  assert (Ho : In (nth (r0 + r) pR 0) pR) by (apply nth_In; lia). apply HR in Ho.
  destruct (nth_error (in_points I) (nth (r0 + r) pR 0 / in_components I)) as [x|] eqn:EX.
  2: { apply nth_error_None in EX. assert (nth (r0 + r) pR 0 / in_components I < length (in_points I)) by (apply Nat.div_lt_upper_bound; lia). lia. }
  exists x. split; [reflexivity|]. rewrite R3 by assumption. unfold potential. apply bsum_ext. intros [[e j] v] _. unfold P. now rewrite EX.
Qed.

(** C153: the rule chosen for a point and an element has the element's number of corners and the order requested for the
    point's distance (from the centre, in units of the element's size; in H-matrix mode the distance of the block, in units of
    the average size); the default order is twice the order of the shape functions *)
Theorem C153_orders : forall ranges distances orders relative g x e nominal D,
  length orders = S (length distances) -> (Z.of_nat (length orders) < 2 ^ 64)%Z -> manageable (requested distances orders relative) ->
  setOrders distances orders relative = Ok ranges -> pDescriptor ranges g x e nominal = Ok D ->
  (exists corners, nth_error (sg_corners g) e = Some corners /\ s_vertexCount D = length corners) /\
  exists o, inForce o (2 * sg_order g e) (s_order D) /\
    narrowest (requested distances orders relative)
      (Fin (if Rlt_dec nominal 0 then sqrt (squaredDistance x (centre g e) / sizeSquared g e) else nominal / averageSize g)) o.
Proof.
  intros ranges ds os rel g x e nom D L B M HS HD.
  destruct (@order_lookup ds os rel L B M) as (m & Em & Hm). rewrite HS in Em. injection Em as <-.
  unfold pDescriptor in HD. destruct (nth_error (sg_corners g) e) as [cs|] eqn:Ec; [|discriminate].
  assert (SQ : sqDist x (centre g e) = squaredDistance x (centre g e)) by (destruct x as [[? ?] ?], (centre g e) as [[? ?] ?]; unfold sqDist, squaredDistance, px, py, pz; cbn [fst snd]; ring). rewrite <- SQ.
  unfold pNormalised in HD. destruct (Rlt_dec nom 0).
  - destruct (Req_EM_T (sizeSquared g e) 0); [discriminate|]. cbn [bind] in HD.
    destruct (Hm (Fin (sqrt (sqDist x (centre g e) / sizeSquared g e)))) as (o & Eo & No). rewrite Eo in HD. cbn [bind] in HD. injection HD as <-.
    split; [now exists cs|]. exists o. split; [reflexivity|exact No].
  - destruct (Req_EM_T (averageSize g) 0); [discriminate|]. cbn [bind] in HD.
    destruct (Hm (Fin (nom / averageSize g))) as (o & Eo & No). rewrite Eo in HD. cbn [bind] in HD. injection HD as <-.
    split; [now exists cs|]. exists o. split; [reflexivity|exact No].
Qed.
(** ... and a rule is chosen for every point and every element of positive size *)
Theorem C153_choice : forall ranges distances orders relative g x e nominal,
  length orders = S (length distances) -> (Z.of_nat (length orders) < 2 ^ 64)%Z -> manageable (requested distances orders relative) ->
  setOrders distances orders relative = Ok ranges -> e < length (sg_corners g) -> sizeSquared g e <> 0%R -> averageSize g <> 0%R ->
  exists D, pDescriptor ranges g x e nominal = Ok D.
Proof.
  intros ranges ds os rel g x e nom L B M HS He H1 H2.
  destruct (@order_lookup ds os rel L B M) as (m & Em & Hm). rewrite HS in Em. injection Em as <-.
  unfold pDescriptor, pNormalised. destruct (nth_error (sg_corners g) e) as [cs|] eqn:Ec; [|apply nth_error_None in Ec; lia].
  destruct (Rlt_dec nom 0).
  - destruct (Req_EM_T (sizeSquared g e) 0); [contradiction|]. cbn [bind]. destruct (Hm (Fin (sqrt (sqDist x (centre g e) / sizeSquared g e)))) as (o & Eo & _). rewrite Eo. cbn. eauto.
  - destruct (Req_EM_T (averageSize g) 0); [contradiction|]. cbn [bind]. destruct (Hm (Fin (nom / averageSize g))) as (o & Eo & _). rewrite Eo. cbn. eauto.
Qed.

(** C154: the cluster tree of the rows gets one entry per point and component, in the order of the rows *)
Theorem C154_row_geometry : forall points comps, 0 < comps ->
  exists l, (exists fuel, fillGeometry fuel points comps (Pgi 0 0) = Some l) /\
    length l = length points * comps /\ forall r, r < length points * comps -> nth_error l r = nth_error points (r / comps).
Proof.
  intros points comps Hc. exists (flat_map (fun x => repeat x comps) points). split.
  - exists (S (length points * comps)). rewrite fill_from; try lia. reflexivity.
  - assert (L : forall l : list point, length (flat_map (fun x => repeat x comps) l) = length l * comps).
    { induction l as [|a l IH]; [reflexivity|]. cbn [flat_map]. rewrite app_length, repeat_length, IH. cbn [length]. lia. }
    split; [apply L|]. induction points as [|a points IH]; intros r Hr; [cbn in Hr; lia|]. cbn [flat_map]. cbn [length] in Hr.
    destruct (Nat.lt_ge_cases r comps) as [Lt|Ge].
    + rewrite nth_error_app1 by now rewrite repeat_length. rewrite Nat.div_small by assumption. cbn. apply nth_error_repeat. exact Lt.
    + rewrite nth_error_app2 by now rewrite repeat_length. rewrite repeat_length, IH by lia.
      replace r with ((r - comps) + 1 * comps) at 2 by lia. rewrite Nat.div_add by lia. now rewrite Nat.add_1_r.
Qed.

(** C155: the volume belonging to a row or column of the H-matrix is that of the smallest element carrying its dof *)
Theorem C155_dof_volumes : forall (K : star_ring) vmax volume (U : space K) pU, g2lInverse U -> validPerm U pU -> length pU = sp_count U ->
  exists vs, spaceVolumes vmax volume U pU = Some vs /\ length vs = sp_count U /\
    forall k, k < sp_count U -> exists m, nth_error vs k = Some m /\
      smallest vmax (map (fun y => let '(e, _, _) := y in volume e) (support U (nth k pU 0))) m.
Proof.
  intros K vmax volume U pU GU VU L. unfold spaceVolumes.
  destruct (@getLists_ok K U pU 0 (sp_count U) GU VU ltac:(lia)) as (LU & EU & _ & PU). rewrite EU.
  match goal with |- context [lowerAll _ ?l] => set (us := l) end.
  assert (US : us = map (fun x => let '(e, _, _, a) := x in (a, volume e)) (entries LU)).
  { unfold us, entries. rewrite flat_map_concat_map, flat_map_concat_map, concat_map, map_map. f_equal. apply map_ext. intros [e grp]. cbn [fst snd]. rewrite map_map. apply map_ext. now intros [[i w] a]. }
  destruct (@lowerAll_ok us (repeat vmax (sp_count U))) as (vs & E & Ln & N).
  { intros i v Hin. rewrite US in Hin. apply in_map_iff in Hin. destruct Hin as ([[[e j] w] a] & [= -> _] & Hin). apply (Permutation_in _ PU) in Hin.
    rewrite repeat_length. unfold wanted in Hin. apply in_flat_map in Hin. destruct Hin as (b & Hb & Hin). apply in_seq in Hb. apply in_map_iff in Hin. destruct Hin as ([[? ?] ?] & [= _ _ _ <-] & _). lia. }
  exists vs. split; [exact E|]. rewrite repeat_length in Ln. split; [exact Ln|]. intros k Hk.
  destruct (N k vmax) as (m & M1 & M2). { apply nth_error_repeat. exact Hk. }
  exists m. split; [exact M1|].
  assert (SM : forall x, In x (map snd (filter (fun iv => Nat.eqb k (fst iv)) us)) <-> In x (map (fun y => let '(e, _, _) := y in volume e) (support U (nth k pU 0)))).
  { intros x. rewrite US. split; intros H; apply in_map_iff in H.
    - destruct H as ([a v] & <- & H). apply filter_In in H. destruct H as [H E1]. apply Nat.eqb_eq in E1. cbn in E1. subst a. apply in_map_iff in H. destruct H as ([[[e j] w] a] & [= -> <-] & H).
      apply (Permutation_in _ PU) in H. unfold wanted in H. apply in_flat_map in H. destruct H as (b & Hb & H). apply in_map_iff in H. destruct H as ([[e' j'] w'] & [= -> -> -> ->] & H).
      apply in_map_iff. exists (e, j, w). auto.
    - destruct H as ([[e j] w] & <- & H). apply in_map_iff. exists (k, volume e). split; [reflexivity|]. apply filter_In. split; [|apply Nat.eqb_refl].
      apply in_map_iff. exists (e, j, w, k). split; [reflexivity|]. apply (Permutation_in _ (Permutation_sym PU)). unfold wanted. apply in_flat_map. exists k. split; [apply in_seq; lia|].
      apply in_map_iff. exists (e, j, w). auto. }
  destruct M2 as (S1 & S2 & S3). split; [destruct S1 as [->|S1]; [now left|right; now apply SM]|]. split; [exact S2|]. intros x Hx. apply S3. now apply SM.
Qed.
(** ... so that every test for a vanishing pivot of a boundary operator is defined *)
Theorem C155_zero_tests : forall (K : star_ring) vmax volumeT volumeU (T U : space K) pT pU zeroTol,
  g2lInverse T -> validPerm T pT -> length pT = sp_count T -> g2lInverse U -> validPerm U pU -> length pU = sp_count U ->
  exists vt vu, spaceVolumes vmax volumeT T pT = Some vt /\ spaceVolumes vmax volumeU U pU = Some vu /\
    forall row column pivot, row < sp_count T -> column < sp_count U -> exists b, zeroTest zeroTol vt vu row column pivot = Ok b.
Proof.
  intros K vmax vT vU T U pT pU tol GT VT LT GU VU LU.
  destruct (@C155_dof_volumes K vmax vT T pT GT VT LT) as (vt & E1 & L1 & _). destruct (@C155_dof_volumes K vmax vU U pU GU VU LU) as (vu & E2 & L2 & _).
  exists vt, vu. split; [exact E1|]. split; [exact E2|]. intros row col pv Hr Hc. unfold zeroTest.
  destruct (nth_error vt row) eqn:X; [|apply nth_error_None in X; lia]. destruct (nth_error vu col) eqn:Y; [|apply nth_error_None in Y; lia]. eauto.
Qed.

(** C156: every row of a potential operator has a volume.  Proved for scalar potentials; what is missing is potentials with
    several components, for which it is false (next theorem) *)
Theorem C156_zero_tests_of_potentials_partial : forall (K : star_ring) vmax volume (U : space K) pU points zeroTol,
  g2lInverse U -> validPerm U pU -> length pU = sp_count U ->
  exists vu, spaceVolumes vmax volume U pU = Some vu /\
    forall row column pivot, row < length points * 1 -> column < sp_count U ->
      exists v, nth_error vu column = Some v /\ zeroTest zeroTol (pointVolumes points) vu row column pivot = Ok (if Rlt_dec (Rabs pivot) (zeroTol * 1 * v) then true else false).
Proof.
  intros K vmax vol U pU points tol GU VU LU. destruct (@C155_dof_volumes K vmax vol U pU GU VU LU) as (vu & E & L & _). exists vu. split; [exact E|].
  intros row col pv Hr Hc. destruct (nth_error vu col) as [v|] eqn:Y; [|apply nth_error_None in Y; lia]. exists v. split; [reflexivity|].
  unfold zeroTest, pointVolumes. rewrite nth_error_repeat by lia. now rewrite Y.
Qed.
(** for a potential with several components (Maxwell, gradients) the test for a vanishing pivot in any row from the number of
    points on reads behind the end of the vector of volumes *)
Theorem C156_zero_tests_of_potentials_refuted : forall points comps zeroTol trialVolumes row column pivot, 1 < comps -> points <> [] ->
  length points <= row < length points * comps -> zeroTest zeroTol (pointVolumes points) trialVolumes row column pivot = Undefined.
Proof.
  intros points comps tol tv row col pv Hc NE [H1 H2]. unfold zeroTest, pointVolumes.
  now rewrite (proj2 (nth_error_None (repeat 1%R (length points)) row)) by now rewrite repeat_length.
Qed.
Example C156_such_rows : forall (points : list point) comps, 1 < comps -> points <> [] -> exists row, length points <= row < length points * comps.
Proof. intros points comps Hc NE. destruct points as [|p points]; [congruence|]. exists (length (p :: points)). cbn. nia. Qed.

(** ---- a concrete potential: two triangles, two points, two components ---- *)
Definition exPoints : list point := [(0, 0, 1); (1, 0, 1)]%R.
Definition exI : ingredients Zsr Z Z unit :=
  Ingredients (K := Zsr) exPoints (fun _ => [5%Z]) (fun e f x => match f with Globals => [(Z.of_nat e + x)%Z] | _ => [2%Z] end)
    (fun _ => tt) (fun _ => 3) (fun _ sel x => match sel with None => x | Some j => (x + 10 * Z.of_nat j)%Z end) []
    (fun b _ j => [(b + 10 * Z.of_nat j)%Z]) [Globals] [Globals]
    (fun p s => match p Globals, s Globals with Some [a], Some [b] => [(a * b)%Z] | _, _ => [0%Z] end)
    2 [] (fun _ k t c => match k, t with [a], [b] => (a * b + Z.of_nat c)%Z | _, _ => 0%Z end).
Definition exRules (d : sdesc) : rule Zsr Z := [(1%Z, s_order d); (2%Z, 1%Z)].
Definition exG : sgeom := SGeom [[0; 1; 2]; [0; 1; 2]]%Z (fun v => if (v =? 0)%Z then (0, 0, 0)%R else if (v =? 1)%Z then (1, 0, 0)%R else (0, 1, 0)%R) (fun _ => 1%Z).
Definition exRanges : list bracket := [(Inf, QOpt false 4)].
Definition exSpace : space Zsr :=
  Space (K := Zsr) 3 [[(0%Z, 1%Z); (1%Z, 1%Z); (2%Z, -1)%Z]; [((-1)%Z, 1%Z); (2%Z, 2%Z); (1%Z, (-1)%Z)]]
    (fun d => match d with 0 => Some [(0, 0, 1%Z)] | 1 => Some [(0, 1, 1%Z); (1, 2, (-1)%Z)] | 2 => Some [(1, 1, 2%Z); (0, 2, (-1)%Z)] | _ => None end).
Example ex_wellMade : wellMade exI /\ consistentShapesets exI.
Proof.
  split; [split; [|split; [|split; [|split]]]|].
  - intros b j s s' E. reflexivity.
  - intros p s s' E. cbn in *. now rewrite (E Globals) by now left.
  - intros s p p' E. cbn in *. now rewrite (E Globals) by now left.
  - intros f [<-|[]]. reflexivity.
  - intros k t c s s' E. reflexivity.
  - intros sh j x s _. cbn. f_equal. lia.
Qed.
Example ex_average : (averageSize exG <> 0)%R.
Proof.
  unfold averageSize. cbn [sg_corners exG length seq fold_left INR].
  assert (S : forall e, (e < 2)%nat -> (0 < sizeSquared exG e)%R).
  { intros e He. assert (X : (sizeSquared exG e = Rmax (Rmax (Rmax 0 (sqDist (1, 0, 0) (0, 0, 0))) (sqDist (0, 1, 0) (1, 0, 0))) (sqDist (0, 0, 0) (0, 1, 0)))%R) by (destruct e as [|[|e]]; [reflexivity|reflexivity|lia]).
    rewrite X. apply (Rlt_le_trans _ (sqDist (0, 0, 0) (0, 1, 0))%R); [unfold sqDist; cbn; lra|apply Rmax_r]. }
  pose proof (sqrt_lt_R0 _ (S 0 ltac:(lia))). pose proof (sqrt_lt_R0 _ (S 1 ltac:(lia))).
  apply Rgt_not_eq. apply Rlt_gt. apply Rdiv_lt_0_compat; lra.
Qed.
Example ex_choice : forall i x e, nth_error (in_points exI) i = Some x -> e < length (sp_dofs exSpace) -> pDescriptor exRanges exG x e 1 = Ok (SDesc 3 4).
Proof.
  intros i x e _ He. unfold pDescriptor, pNormalised. assert (N : nth_error (sg_corners exG) e = Some [0; 1; 2]%Z) by (destruct e as [|[|e]]; [reflexivity|reflexivity|cbn in He; lia]).
  rewrite N. destruct (Rlt_dec 1 0); [lra|]. destruct (Req_EM_T (averageSize exG) 0) as [E|_]; [now destruct ex_average|]. reflexivity.
Qed.
Example ex_space : g2lInverse exSpace.
Proof.
  assert (S : forall d e i w, In (e, i, w) (support exSpace d) <-> exists ds, nth_error (sp_dofs exSpace) e = Some ds /\ nth_error ds i = Some (Z.of_nat d, w)) by (intros; apply in_support).
  intros d Hd. cbn in Hd.
  destruct d as [|[|[|d]]]; [| | |lia]; (eexists; split; [reflexivity|]; split;
    [repeat constructor; cbn; intuition discriminate|]); intros e i w; rewrite <- S; cbn; intuition.
Qed.
(** a block of two rows and two columns: rows 3 and 0 are component 1 of point 1 and component 0 of point 0 *)
Example C152_example : exists m, potentialBlock (fun a b => match a, b with tt, tt => left eq_refl end) exI exRanges exG exRules (fun l => l) (fun l => l) (Mat (K := Zsr) 0 0 (fun _ _ => 0%Z)) exSpace
    [3; 0; 1; 2] [2; 0; 1] 1 0 2 0 2 = Ok m /\ m_rows m = 2 /\ m_cols m = 2.
Proof.
  destruct (@C152_potential_blocks Zsr Z Z unit (fun a b => match a, b with tt, tt => left eq_refl end) exI exRanges exG exRules (fun l => l) (fun l => l) (Mat (K := Zsr) 0 0 (fun _ _ => 0%Z)) exSpace
    1%R (fun _ _ => SDesc 3 4) [3; 0; 1; 2] [2; 0; 1] 0 2 0 2) as (m & E & R1 & R2 & _).
  - apply ex_wellMade. - apply ex_wellMade. - discriminate. - intros l a. tauto. - intros l a. tauto. - apply ex_choice.
  - intros e He. destruct e as [|[|e]]; [reflexivity|reflexivity|cbn in He; lia].
  - apply ex_space.
  - intros d Hd. cbn in *. lia.
  - cbn. lia.
  - intros o Ho. cbn in *. lia.
  - cbn. lia.
  - cbn. lia.
  - exists m. auto.
Qed.
Example C152_value : bsum (support exSpace 2) (fun y => let '(e, j, v) := y in mul v (localPotential exI (exRules (SDesc 3 4)) (1, 0, 1)%R e None j 1)) = 1210%Z.
Proof. vm_compute. reflexivity. Qed.
Example C153_example : setOrders [] [4]%Z false = Ok exRanges /\ manageable (requested [] [4]%Z false).
Proof. split; [reflexivity|]. left. cbn. lia. Qed.
Example C154_example : fillGeometry 5 exPoints 2 (Pgi 0 0) = Some [(0, 0, 1); (0, 0, 1); (1, 0, 1); (1, 0, 1)]%R.
Proof. reflexivity. Qed.

Print Assumptions C151_local_contributions.
Print Assumptions C151_integrators.
Print Assumptions C152_potential_blocks.
Print Assumptions C153_orders.
Print Assumptions C153_choice.
Print Assumptions C154_row_geometry.
Print Assumptions C155_dof_volumes.
Print Assumptions C155_zero_tests.
Print Assumptions C156_zero_tests_of_potentials_partial.
Print Assumptions C156_zero_tests_of_potentials_refuted.
