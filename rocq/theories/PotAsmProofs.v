From Coq Require Import Reals ZArith List Bool Arith Lia Permutation Lra.
Import ListNotations.
From Verif Require Import Base ArrayModel BoxModel QuadModel AccModel AsmModel AsmSpec AsmProofs DofListModel DofListSpec DofListProofs HBlockModel HBlockProofs
  NumIntModel NumIntSpec NumIntProps LocalCacheProofs PotAsmModel PotAsmSpec.
Set Implicit Arguments.
Unset Strict Implicit.

(** ---- batches ---- *)
Section BatchProofs.
  Variables Q X M : Type.
  Variable qdec : forall a b : Q, {a = b} + {a <> b}.
  Variable run : Q -> list X -> list M -> res (list M).
  Variable F : Q -> X -> M.
  Hypothesis runOk : forall v xs rs, length rs = length xs -> run v xs rs = Ok (map (F v) xs).

  Lemma active_length A B v qs : forall (l : list A) (l' : list B), length l = length l' -> length (active qdec v qs l) = length (active qdec v qs l').
  Proof.
    induction qs as [|q qs IH]; intros [|a l] [|b l'] L; try reflexivity; try discriminate. cbn [active].
    destruct (qdec q v); cbn [length]; rewrite (IH l l') by (cbn in L; lia); reflexivity.
  Qed.
  (** cells not of variant v stay, the others get F v x *)
  Fixpoint cells (done : list Q) (qs : list Q) (xs : list X) (rs : list M) : list M :=
    match qs, xs, rs with
    | q :: qs', x :: xs', r :: rs' => (if in_dec qdec q done then F q x else r) :: cells done qs' xs' rs'
    | _, _, _ => rs
    end.
  Lemma putBack_cells v qs : forall xs rs, length xs = length qs -> length rs = length qs ->
    putBack qdec v qs rs (map (F v) (active qdec v qs xs)) = cells [v] qs xs rs.
  Proof.
    induction qs as [|q qs IH]; intros [|x xs] [|r rs] L1 L2; try reflexivity; try discriminate.
    cbn [putBack active cells]. destruct (qdec q v) as [->|N].
    - cbn [map]. destruct (in_dec qdec v [v]) as [_|Y]; [|destruct Y; now left]. f_equal. apply IH; cbn in *; lia.
    - destruct (in_dec qdec q [v]) as [[Y|[]]|_]; [congruence|]. f_equal. apply IH; cbn in *; lia.
  Qed.
  Lemma cells_length d qs : forall xs rs, length (cells d qs xs rs) = length rs.
  Proof. induction qs as [|q qs IH]; intros [|x xs] [|r rs]; try reflexivity. cbn [cells length]. now rewrite IH. Qed.
  Lemma cells_cells a b qs : forall xs rs, cells b qs xs (cells a qs xs rs) = cells (a ++ b) qs xs rs.
  Proof.
    induction qs as [|q qs IH]; intros [|x xs] [|r rs]; try reflexivity. cbn [cells]. rewrite IH. f_equal.
    destruct (in_dec qdec q b) as [Y|Y], (in_dec qdec q a) as [Z|Z], (in_dec qdec q (a ++ b)) as [W|W]; try reflexivity; exfalso.
    all: try (apply W; apply in_or_app; now (left + right)). apply in_app_or in W. tauto.
  Qed.
  Lemma cells_nil qs : forall xs rs, cells [] qs xs rs = rs.
  Proof. induction qs as [|q qs IH]; intros [|x xs] [|r rs]; try reflexivity. cbn [cells]. rewrite IH. now destruct (in_dec qdec q []) as [[]|_]. Qed.
  Lemma batches_cells vs qs xs : length xs = length qs -> forall rs, length rs = length qs -> batches qdec run vs qs xs rs = Ok (cells vs qs xs rs).
  Proof.
    intros L. induction vs as [|v vs IH]; intros rs L2; [cbn; now rewrite cells_nil|].
    cbn [batches]. rewrite runOk by (apply active_length; lia). cbn [bind]. rewrite putBack_cells by assumption.
    rewrite IH by now rewrite cells_length. rewrite cells_cells. reflexivity.
  Qed.
  Lemma batches_ok vs qs xs rs : length xs = length qs -> length rs = length qs -> (forall q, In q qs -> In q vs) ->
    batches qdec run vs qs xs rs = Ok (map (fun qx => F (fst qx) (snd qx)) (combine qs xs)).
  Proof.
    intros L1 L2 C. rewrite batches_cells by assumption. f_equal. revert xs rs L1 L2 C. induction qs as [|q qs IH]; intros [|x xs] [|r rs] L1 L2 C; try reflexivity; try discriminate.
    cbn [cells combine map fst snd]. destruct (in_dec qdec q vs) as [_|N]; [|destruct N; apply C; now left].
    f_equal. apply IH; cbn in *; try lia. intros q' I. apply C. now right.
  Qed.
End BatchProofs.
Lemma resized_length M (fresh : M) n old : length (resized fresh n old) = n.
Proof. unfold resized. rewrite app_length, firstn_length, repeat_length. lia. Qed.

(** ---- one integrator ---- *)
Section Assembler.
  Variable K : star_ring.
  Add Ring Kpa : (sr_ring K).
  Variables Xl Bd Sh : Type.
  Variable sh_dec : forall a b : Sh, {a = b} + {a <> b}.
  Variable I : ingredients K Xl Bd Sh.
  Hypothesis WM : wellMade I.

  Lemma nth_map A B (f : A -> B) l n da db : n < length l -> nth n (map f l) db = f (nth n l da).
  Proof. intros L. rewrite (nth_indep _ db (f da)) by now rewrite map_length. apply map_nth. Qed.
  Lemma bsum_seq_nth A (l : list A) d (f : A -> K) : bsum l f = bsum (seq 0 (length l)) (fun q => f (nth q l d)).
  Proof. rewrite <- (bsum_map _ (fun q => nth q l d) f). now rewrite map_nth_seq. Qed.
  Lemma at_agree deps (gd gd' : gdata (V K)) q : (forall x, In x deps -> gd x = gd' x) -> forall x, In x deps -> at_ gd q x = at_ gd' q x.
  Proof. intros E x Hx. unfold at_. now rewrite E. Qed.
  Lemma fold_left_ext A B (f h : A -> B -> A) l : (forall a b, In b l -> f a b = h a b) -> forall a, fold_left f l a = fold_left h l a.
  Proof. induction l as [|b l IH]; intros E a; [reflexivity|]. cbn. rewrite E by now left. apply IH. intros; apply E; now right. Qed.
  Lemma honest_integrator (r : rule K Xl) : phonest (integratorOf I r).
  Proof.
    destruct WM as (H1 & H2 & H3 & H4 & H5).
    split; [|split; [|split]]; cbn [integratorOf ptransDeps ptrans pkernelPointDeps pkernels pkernelTrialDeps pintegralDeps pintegral].
    - intros b gd gd' E. apply map_ext. intros j. apply map_ext. intros xq. apply H1. now apply at_agree.
    - intros gd pd pd' E. apply map_ext. intros q. apply H3. now apply at_agree.
    - intros pd gd gd' E. apply map_ext. intros q. apply H2. now apply at_agree.
    - intros values kernels gd gd' E. unfold pureWeights.
      assert (X : forall q, ie (at_ gd q) = ie (at_ gd' q)) by (intros q; unfold ie, at_; now rewrite (E IntegrationElements) by now left).
      f_equal. assert (Y : forall f h : list (list K), f = h -> (fun dim dof => nth dof (nth dim f []) zero) = (fun dim dof => nth dof (nth dim h []) zero)) by (intros f h ->; reflexivity).
      apply Y. apply map_ext. intros dim. apply map_ext. intros dv. apply fold_left_ext. intros a q _. f_equal. f_equal. f_equal; [|apply X].
      apply H5. apply at_agree. intros x Hx. apply E. now right.
  Qed.
  (** the whole data of the points: position in every field *)
  Definition wholePoint (r : rule K Xl) (i : nat) (f : field) : V K := pointGlobals (integratorOf I r) i.
  Lemma pointMatrix_ok (r : rule K Xl) i e sel x : nth_error (in_points I) i = Some x ->
    let m := pointMatrix (integratorOf I r) i e (in_shapeset I e) sel (wholePoint r) in
    m_rows m = in_components I /\ m_cols m = selectedDofs I e sel /\
    forall c j, c < in_components I -> j < selectedDofs I e sel -> m_at m c j = localPotential I r x e sel j c.
  Proof.
    intros EX. unfold pointMatrix. cbn [integratorOf pintegral ptrans pbasis pkernels element]. set (dofs := match sel with None => _ | Some _ => _ end).
    assert (ED : dofs = selectedDofs I e sel) by reflexivity. rewrite <- ED.
    unfold pureWeights. cbn [m_rows m_cols m_at fst snd]. rewrite map_length, seq_length. split; [reflexivity|]. split; [reflexivity|].
    intros c j Hc Hj. destruct WM as (H1 & H2 & H3 & H4 & H5).
    rewrite (@nth_map nat _ _ (seq 0 (in_components I)) c 0) by now rewrite seq_length. rewrite seq_nth by assumption. cbn [plus].
    rewrite (@nth_map _ _ _ _ j []) by (rewrite map_length, seq_length; lia).
    rewrite (@nth_map nat _ _ (seq 0 dofs) j 0) by (rewrite seq_length; lia). rewrite seq_nth by lia. cbn [plus].
    rewrite bsum_fold_left. unfold localPotential. rewrite map_length.
    destruct r as [|xw0 r0] eqn:ER; [cbn; ring|]. rewrite <- ER. rewrite (bsum_seq_nth r xw0).
    set (S := bsum (seq 0 (length r)) _). transitivity S; [unfold S; ring|]. unfold S. clear S.
    apply bsum_ext. intros q Hq. apply in_seq in Hq.
    assert (GD : forall f, at_ (complete (fun f : field => map (fun xw => in_geometry I e f (fst xw)) r)) q f = everything I e (fst (nth q r xw0)) f).
    { intros f. unfold at_, complete, everything. rewrite (nth_error_nth' _ [] ) by (rewrite map_length; lia). now rewrite (nth_map _ xw0) by lia. }
    f_equal; [f_equal|].
    - rewrite (@nth_map nat _ _ (seq 0 (length r)) q 0) by (rewrite seq_length; lia). rewrite seq_nth by lia. cbn [plus].
      rewrite (@nth_map _ _ _ _ q (in_basis I (in_shapeset I e) sel (fst xw0), 0)) by (rewrite combine_length, map_length, seq_length; lia).
      rewrite combine_nth by (now rewrite seq_length). rewrite seq_nth by (rewrite map_length; lia). cbn [fst snd plus].
      rewrite (nth_map _ xw0) by lia.
      rewrite (H1 _ _ _ (everything I e (fst (nth q r xw0)))) by (intros; apply GD).
      rewrite (H2 _ _ (everything I e (fst (nth q r xw0)))) by (intros; apply GD).
      rewrite (H5 _ _ _ _ (everything I e (fst (nth q r xw0)))) by (intros; apply GD).
      f_equal. apply (H3 (everything I e (fst (nth q r xw0)))). intros f Hf. apply H4 in Hf. subst f. unfold at_, complete, wholePoint, position_. cbn. now rewrite EX.
    - unfold ie, jacobian. rewrite GD. reflexivity.
    - apply nth_map. lia.
  Qed.

  Variable ranges : list bracket.
  Variable g : sgeom.
  Variable rules : sdesc -> rule K Xl.
  Hypothesis nonempty : forall d, rules d <> [].
  Variable order1 : list sdesc -> list sdesc.
  Variable order2 : list (sdesc * Sh) -> list (sdesc * Sh).
  Hypothesis O1 : enumeratesSet order1.
  Hypothesis O2 : enumeratesSet order2.
  Variable fresh : mat K.
  Notation contrib := (contribution I ranges g rules).
  Notation contribRow := (contributionRow I ranges g rules).

  Lemma mapRes_F2 A B (f : A -> res B) l : forall bs, mapRes f l = Ok bs -> Forall2 (fun a b => f a = Ok b) l bs.
  Proof.
    induction l as [|a l IH]; intros bs E; [injection E as <-; constructor|].
    apply mapRes_cons in E. destruct E as (b & r' & E1 & E2 & ->). constructor; [exact E1|]. now apply IH.
  Qed.
  Lemma F2_combine A B C (P : A -> B -> Prop) (R : A -> C -> Prop) (h : B * A -> C) l bs :
    Forall2 P l bs -> (forall a b, P a b -> R a (h (b, a))) -> Forall2 R l (map h (combine bs l)).
  Proof. intros F H. induction F; [constructor|]. cbn. constructor; auto. Qed.
  Lemma F2_len A B (P : A -> B -> Prop) l bs : Forall2 P l bs -> length l = length bs.
  Proof. induction 1; cbn; auto. Qed.
  Lemma quad_pos d : 0 < quadPoints (integratorOf I (rules d)).
  Proof. cbn. pose proof (@nonempty d). destruct (rules d); [congruence|cbn; lia]. Qed.
  Lemma four d rs :
    (forall points e sh dof, length rs = length points -> integratePoints (integratorOf I (rules d)) points e sh dof rs = Ok (map (fun i => pointMatrix (integratorOf I (rules d)) i e sh dof (wholePoint (rules d))) points)) /\
    (forall i es sh, length rs = length es -> integrateElements (integratorOf I (rules d)) i None es sh rs = Ok (map (fun e => pointMatrix (integratorOf I (rules d)) i e sh None (wholePoint (rules d))) es)) /\
    (forall i c es sh, length rs = length es -> integrateElements (integratorOf I (rules d)) i (Some c) es sh rs = Ok (map (fun e => prow (integratorOf I (rules d)) c (pointMatrix (integratorOf I (rules d)) i e sh None (wholePoint (rules d)))) es)) /\
    (forall ps sh, length rs = length ps -> integratePointElements (integratorOf I (rules d)) ps sh rs = Ok (map (fun p => pointMatrix (integratorOf I (rules d)) (fst p) (snd p) sh None (wholePoint (rules d))) ps)).
  Proof.
    apply C118_potential_matrices; [apply honest_integrator | apply quad_pos | apply WM | reflexivity].
  Qed.
  Lemma select_rule nominal i e d : selectIntegrator I ranges g i e nominal = Ok d ->
    exists x, nth_error (in_points I) i = Some x /\ ruleFor I ranges g rules nominal i e x (rules d).
  Proof.
    unfold selectIntegrator. destruct (nth_error (in_points I) i) as [x|] eqn:E; [|discriminate]. intros D. exists x. split; [reflexivity|]. split; [exact E|]. now exists d.
  Qed.
  Lemma select_contrib nominal i e sel d : selectIntegrator I ranges g i e nominal = Ok d ->
    contrib nominal sel i e (pointMatrix (integratorOf I (rules d)) i e (in_shapeset I e) sel (wholePoint (rules d))).
  Proof.
    intros D. apply select_rule in D. destruct D as (x & EX & R). exists x, (rules d). split; [exact R|]. now apply pointMatrix_ok.
  Qed.
  Lemma can_select nominal i e : canChoose I ranges g rules nominal i e -> exists d, selectIntegrator I ranges g i e nominal = Ok d.
  Proof. intros (x & r & E & d & D & _). exists d. unfold selectIntegrator. now rewrite E. Qed.

  Lemma evaluatePoints_sound pts e sel old nominal ms :
    evaluatePoints I ranges g rules order1 fresh pts e sel old nominal = Ok ms -> Forall2 (fun i m => contrib nominal sel i e m) pts ms.
  Proof.
    unfold evaluatePoints. intros H. apply bind_ok in H. destruct H as (qs & E & H). apply mapRes_F2 in E.
    rewrite (@batches_ok _ _ _ sdesc_dec _ (fun d i => pointMatrix (integratorOf I (rules d)) i e (in_shapeset I e) sel (wholePoint (rules d)))) in H.
    - injection H as <-. apply (F2_combine E). intros i d D. cbn [fst snd]. now apply select_contrib.
    - intros d xs rs L. now apply (four d rs).
    - now rewrite (F2_len E).
    - rewrite resized_length. now rewrite (F2_len E).
    - intros q. apply O1.
  Qed.
  Lemma evaluatePoints_total pts e sel old nominal : (forall i, In i pts -> canChoose I ranges g rules nominal i e) ->
    exists ms, evaluatePoints I ranges g rules order1 fresh pts e sel old nominal = Ok ms.
  Proof.
    intros H. destruct (@mapRes_total _ _ (fun i => selectIntegrator I ranges g i e nominal) pts) as (qs & E).
    { intros i Hi. now apply can_select, H. }
    unfold evaluatePoints. rewrite E. cbn [bind]. apply mapRes_F2 in E. eexists.
    apply (@batches_ok _ _ _ sdesc_dec _ (fun d i => pointMatrix (integratorOf I (rules d)) i e (in_shapeset I e) sel (wholePoint (rules d)))).
    - intros d xs rs L. now apply (four d rs).
    - now rewrite (F2_len E).
    - rewrite resized_length. now rewrite (F2_len E).
    - intros q. apply O1.
  Qed.

  Definition compMatrix (component : option nat) (i : nat) (v : sdesc * Sh) (e : nat) : mat K :=
    match component with
    | None => pointMatrix (integratorOf I (rules (fst v))) i e (snd v) None (wholePoint (rules (fst v)))
    | Some c => prow (integratorOf I (rules (fst v))) c (pointMatrix (integratorOf I (rules (fst v))) i e (snd v) None (wholePoint (rules (fst v))))
    end.
  Lemma run_elements component i v xs rs : length rs = length xs ->
    integrateElements (integratorOf I (rules (fst v))) i component xs (snd v) rs = Ok (map (compMatrix component i v) xs).
  Proof. intros L. destruct component as [c|]; now apply (four (fst v) rs). Qed.
  Lemma evaluateElements_sound i component es old nominal ms :
    evaluateElements sh_dec I ranges g rules order2 fresh i component es old nominal = Ok ms ->
    Forall2 (fun e m => match component with None => contrib nominal None i e m | Some c => c < in_components I -> contribRow nominal c i e m end) es ms.
  Proof.
    unfold evaluateElements. intros H. apply bind_ok in H. destruct H as (qs & E & H). apply mapRes_F2 in E.
    rewrite (@batches_ok _ _ _ (variant_dec sh_dec) _ (compMatrix component i)) in H.
    - injection H as <-. apply (F2_combine E). intros e v D. cbn [fst snd]. unfold selectVariant in D. apply bind_ok in D. destruct D as (d & D & [= <-]).
      pose proof (select_contrib None D) as (x & r & R & A1 & A2 & A3). unfold compMatrix. cbn [fst snd]. destruct component as [c|].
      + intros Hc. exists x, r. split; [exact R|]. cbn [integratorOf prow m_rows m_cols m_at]. split; [reflexivity|]. split; [exact A2|]. intros j Hj. now apply A3.
      + now exists x, r.
    - intros v xs rs L. now apply run_elements.
    - now rewrite (F2_len E).
    - rewrite resized_length. now rewrite (F2_len E).
    - intros q. apply O2.
  Qed.
  Lemma evaluateElements_total i component es old nominal : (forall e, In e es -> canChoose I ranges g rules nominal i e) ->
    exists ms, evaluateElements sh_dec I ranges g rules order2 fresh i component es old nominal = Ok ms.
  Proof.
    intros H. destruct (@mapRes_total _ _ (fun e => selectVariant I ranges g i e nominal) es) as (qs & E).
    { intros e He. destruct (can_select (H e He)) as (d & D). exists (d, in_shapeset I e). unfold selectVariant. now rewrite D. }
    unfold evaluateElements. rewrite E. cbn [bind]. apply mapRes_F2 in E. eexists.
    apply (@batches_ok _ _ _ (variant_dec sh_dec) _ (compMatrix component i)).
    - intros v xs rs L. now apply run_elements.
    - now rewrite (F2_len E).
    - rewrite resized_length. now rewrite (F2_len E).
    - intros q. apply O2.
  Qed.
  Lemma evaluatePairs_sound pts es old nominal ms :
    evaluatePairs sh_dec I ranges g rules order2 fresh pts es old nominal = Ok ms -> Forall2 (fun p m => contrib nominal None (fst p) (snd p) m) (allPairs pts es) ms.
  Proof.
    unfold evaluatePairs. intros H. apply bind_ok in H. destruct H as (qs & E & H). apply mapRes_F2 in E.
    rewrite (@batches_ok _ _ _ (variant_dec sh_dec) _ (fun v p => compMatrix None (fst p) v (snd p))) in H.
    - injection H as <-. apply (F2_combine E). intros p v D. cbn [fst snd]. unfold selectVariant in D. apply bind_ok in D. destruct D as (d & D & [= <-]).
      now apply select_contrib.
    - intros v xs rs L. now apply (four (fst v) rs).
    - now rewrite (F2_len E).
    - rewrite resized_length. now rewrite (F2_len E).
    - intros q. apply O2.
  Qed.
  Lemma evaluatePairs_total pts es old nominal : (forall i e, In i pts -> In e es -> canChoose I ranges g rules nominal i e) ->
    exists ms, evaluatePairs sh_dec I ranges g rules order2 fresh pts es old nominal = Ok ms.
  Proof.
    intros H. destruct (@mapRes_total _ _ (fun p => selectVariant I ranges g (fst p) (snd p) nominal) (allPairs pts es)) as (qs & E).
    { intros [i e] Hp. unfold allPairs in Hp. apply in_flat_map in Hp. destruct Hp as (e' & He & Hp). apply in_map_iff in Hp. destruct Hp as (i' & [= -> ->] & Hi).
      destruct (can_select (H i e Hi He)) as (d & D). exists (d, in_shapeset I e). unfold selectVariant. cbn [fst snd]. now rewrite D. }
    unfold evaluatePairs. rewrite E. cbn [bind]. apply mapRes_F2 in E. eexists.
    apply (@batches_ok _ _ _ (variant_dec sh_dec) _ (fun v p => compMatrix None (fst p) v (snd p))).
    - intros v xs rs L. now apply (four (fst v) rs).
    - now rewrite (F2_len E).
    - rewrite resized_length. now rewrite (F2_len E).
    - intros q. apply O2.
  Qed.
End Assembler.
