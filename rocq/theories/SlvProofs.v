(** Proofs about SlvModel *)
From Coq Require Import List Arith Bool ZArith Lia.
Import ListNotations.
From Verif Require Import Base ArrayModel AsmModel QuadModel MatAlg PyOpModel LocalCacheProofs PyOpSpec PyOpProofs PyBopModel PyBopSpec PyBopProofs PyBopProps PyBlockModel PyBlockSpec PyBlockProofs PyBlockProps PyBbopModel PyBbopSpec PyBbopProps PyGfModel PyGfSpec PyGfProofs PyGfLists PyGfProps SlvModel SlvSpec.
Set Implicit Arguments.

Section Proofs.
  Variable K : star_ring.
  Variable mass : space -> space -> mat K.
  Variable pinv : mat K -> mat K.
  Notation vec := (mat K).
  Hypothesis HG : goodInverse pinv.
  Hypothesis HM : massSized mass.
  Notation grun := (grun mass pinv). Notation means := (means mass pinv). Notation orderly := (orderly mass pinv).
  Notation coefficients := (coefficients mass pinv). Notation projections := (projections mass pinv).

  Lemma grun_app cs c : grun (cs ++ [c]) = gstep mass pinv (grun cs) c.
  Proof. unfold PyGfModel.grun. rewrite fold_left_app. reflexivity. Qed.
  Lemma means_app cs c : means (cs ++ [c]) = meansNext mass pinv (means cs) c.
  Proof. unfold PyGfSpec.means. rewrite fold_left_app. reflexivity. Qed.
  Lemma run_app bcs c : run mass (bcs ++ [c]) = step mass (run mass bcs) c.
  Proof. unfold run. rewrite fold_left_app. reflexivity. Qed.
  Lemma orderly_new cs s d (x : vec) : orderly cs -> vecFor s x -> orderly (cs ++ [GNew s d x]).
  Proof. intros O V. apply app_orderly; auto. exact Logic.I. Qed.
  Lemma orderly_proj cs i d : orderly cs -> safeQuery (grun cs) i d -> orderly (cs ++ [GProj i d]).
  Proof. intros O S. apply app_orderly; auto. exact Logic.I. Qed.
  Lemma len_means cs : orderly cs -> length (grun cs) = length (means cs).
  Proof. intros O. pose proof (inv_true HG HM O) as I. clear - I. induction I; cbn; congruence. Qed.

  (** reading projections *)
  Lemma read_projections cs i s v d : orderly cs -> properDuals mass pinv cs -> nth_error (means cs) i = Some (s, v) ->
    safeQuery (grun cs) i (Some d) ->
    exists p g, projections i (Some d) (grun cs) = (grun (cs ++ [GProj i (Some d)]), Ok p) /\ nth_error (grun cs) i = Some g /\ g_space g = s /\
      meq p (mMul (mass s d) v) /\ vecFor d p /\ vecFor s v /\ orderly (cs ++ [GProj i (Some d)]) /\ means (cs ++ [GProj i (Some d)]) = means cs /\
      length (grun (cs ++ [GProj i (Some d)])) = length (grun cs).
  Proof.
    intros O PD Nm SQ. destruct (C93_functions_partial HG HM i O Nm) as [_ P]. destruct (P PD _ SQ) as (g & p & Eg & Gs & Q & M).
    assert (VS : vecFor s v). { destruct (F2_nth (inv_true HG HM O) _ Nm) as (g1 & Eg1 & _ & Gv & _). exact Gv. }
    assert (VP : vecFor d p). { destruct M as (M1 & M2 & _). destruct (HM s d) as [R1 _]. destruct VS as [_ VC]. split; cbn in *; congruence. }
    assert (OO : orderly (cs ++ [GProj i (Some d)])) by (apply orderly_proj; assumption).
    exists p, g. repeat match goal with |- _ /\ _ => split end; auto.
    - rewrite grun_app. cbn [gstep]. destruct (projections i (Some d) (grun cs)) as [h r]. cbn in *. congruence.
    - rewrite means_app. reflexivity.
    - rewrite !len_means, means_app by assumption. reflexivity.
  Qed.
  Lemma read_coefficients cs i s v : orderly cs -> nth_error (means cs) i = Some (s, v) ->
    exists c g, coefficients i (grun cs) = (grun (cs ++ [GCoeff i]), Ok c) /\ nth_error (grun cs) i = Some g /\ g_space g = s /\ meq c v /\ vecFor s v /\
      orderly (cs ++ [GCoeff i]) /\ means (cs ++ [GCoeff i]) = means cs /\ length (grun (cs ++ [GCoeff i])) = length (grun cs).
  Proof.
    intros O Nm. destruct (C93_functions_partial HG HM i O Nm) as [(c & Q & M) _].
    assert (OO : orderly (cs ++ [GCoeff i])) by (apply app_orderly; auto; exact Logic.I).
    destruct (F2_nth (inv_true HG HM O) _ Nm) as (g1 & Eg1 & Gs & Gv & _).
    exists c, g1. repeat match goal with |- _ /\ _ => split end; auto.
    - rewrite grun_app. cbn [gstep]. destruct (coefficients i (grun cs)) as [h r]. cbn in *. congruence.
    - rewrite means_app. reflexivity.
    - rewrite !len_means, means_app by assumption. reflexivity.
  Qed.

  Lemma objects_query bcs c : (match c with CNew _ => False | _ => True end) -> @objects K (bcs ++ [c]) = objects bcs.
  Proof. intros H. unfold objects. rewrite fold_left_app. destruct c; [destruct H|reflexivity|reflexivity]. Qed.

  Section Op.
    Variables (bcs : list (cmd K)) (j : nat) (e : boe K).
    Hypothesis HE : nth_error (objects bcs) j = Some e.
    Hypothesis SZ : sized pinv e.
    Hypothesis AD : adjointable (weakE mass e).
    Lemma obj_now c : (match c with CNew _ => False | _ => True end) ->
      exists o, nth_error (run mass (bcs ++ [c])) j = Some o /\ o_dom o = dom e /\ o_ran o = ran e /\ o_dual o = dual e.
    Proof.
      intros H. destruct (C57_calculus HG HM (bcs ++ [c]) j (e := e)) as (X & _); auto. rewrite objects_query; auto.
    Qed.
    Lemma read_weak : exists w o, nth_error (run mass bcs) j = Some o /\ o_dom o = dom e /\ o_ran o = ran e /\ o_dual o = dual e /\
      weak_form mass false j (run mass bcs) = (run mass (bcs ++ [CWeak false j]), Ok w) /\ realises pinv w (weakM mass pinv e) /\
      build (weakE mass e) = Ok w /\
      m_rows (weakM mass pinv e) = s_dofs (dual e) /\ m_cols (weakM mass pinv e) = s_dofs (dom e).
    Proof.
      destruct (C57_calculus HG HM bcs j HE SZ AD) as ((o & Ho & A1 & A2 & A3) & R & C & _ & _ & W). destruct (W false) as ((w & Ew & Rw) & _).
      exists w, o. repeat match goal with |- _ /\ _ => split end; auto; try apply Rw.
      - rewrite run_app. cbn [step]. destruct (weak_form mass false j (run mass bcs)) as [h r]. cbn in *. congruence.
      - assert (B : snd (weak_form mass false j (run mass bcs)) = build (weakE mass e)).
        { pose proof (run_inv HM bcs) as I. apply (weakForm_ok (f := Datatypes.S (length (run mass bcs))) HM HE); auto. apply Nat.lt_lt_succ_r, nth_error_Some. congruence. }
        congruence.
    Qed.
    Lemma read_strong : exists w o, nth_error (run mass bcs) j = Some o /\ o_dom o = dom e /\ o_ran o = ran e /\ o_dual o = dual e /\
      strong_form mass false j (run mass bcs) = (run mass (bcs ++ [CStrong false j]), Ok w) /\ realises pinv w (strongM mass pinv e) /\
      m_rows (strongM mass pinv e) = s_dofs (ran e) /\ m_cols (strongM mass pinv e) = s_dofs (dom e).
    Proof.
      destruct (C57_calculus HG HM bcs j HE SZ AD) as ((o & Ho & A1 & A2 & A3) & _ & _ & R & C & W). destruct (W false) as (_ & (w & Ew & Rw)).
      exists w, o. repeat match goal with |- _ /\ _ => split end; auto; try apply Rw.
      rewrite run_app. cbn [step]. destruct (strong_form mass false j (run mass bcs)) as [h r]. cbn in *. congruence.
    Qed.

    Lemma system_weak cs i s v : orderly cs -> properDuals mass pinv cs -> nth_error (means cs) i = Some (s, v) ->
      safeQuery (grun cs) i (Some (dual e)) ->
      exists w p, system mass pinv false j i (run mass bcs, grun cs) =
          ((run mass (bcs ++ [CWeak false j]), grun (cs ++ [GProj i (Some (dual e))])), Ok (w, p)) /\
        realises pinv w (weakM mass pinv e) /\ meq p (mMul (mass s (dual e)) v) /\ vecFor (dual e) p /\
        orderly (cs ++ [GProj i (Some (dual e))]) /\ means (cs ++ [GProj i (Some (dual e))]) = means cs /\
        length (grun (cs ++ [GProj i (Some (dual e))])) = length (grun cs) /\
        m_rows (weakM mass pinv e) = s_dofs (dual e) /\ m_cols (weakM mass pinv e) = s_dofs (dom e).
    Proof.
      intros O PD Nm SQ. destruct read_weak as (w & o & Ho & A1 & A2 & A3 & W & Rw & _ & R & C).
      destruct (@read_projections cs i s v (dual e) O PD Nm SQ) as (p & g & Q & Eg & Gs & M & VP & _ & OO & MM & LL).
      exists w, p. repeat match goal with |- _ /\ _ => split end; auto; try apply Rw; try apply VP; try apply M.
      unfold system. rewrite Ho, Eg, W, A3, Q. reflexivity.
    Qed.
    Lemma system_strong cs i s v : orderly cs -> nth_error (means cs) i = Some (s, v) -> s_dofs s = s_dofs (ran e) ->
      exists w p, system mass pinv true j i (run mass bcs, grun cs) =
          ((run mass (bcs ++ [CStrong false j]), grun (cs ++ [GCoeff i])), Ok (w, p)) /\
        realises pinv w (strongM mass pinv e) /\ meq p v /\ vecFor (ran e) p /\
        orderly (cs ++ [GCoeff i]) /\ means (cs ++ [GCoeff i]) = means cs /\ length (grun (cs ++ [GCoeff i])) = length (grun cs) /\
        m_rows (strongM mass pinv e) = s_dofs (ran e) /\ m_cols (strongM mass pinv e) = s_dofs (dom e).
    Proof.
      intros O Nm SD. destruct read_strong as (w & o & Ho & A1 & A2 & A3 & W & Rw & R & C).
      destruct (@read_coefficients cs i s v O Nm) as (c & g & Q & Eg & Gs & M & VS & OO & MM & LL).
      exists w, c. repeat match goal with |- _ /\ _ => split end; auto; try apply Rw; try apply M.
      - unfold system. rewrite Ho, Eg, A2, Gs, W, Q. replace (compat (ran e) s) with true by (symmetry; apply Nat.eqb_eq; congruence). reflexivity.
      - destruct M as (M1 & M2 & _), VS as [V1 V2]. split; congruence.
    Qed.
  End Op.

  Section Fin.
    Variables (N : Type) (A : Type).
    Lemma finish_ok bcs j e (c : cmd K) cs w p (calls : runOf K A -> dop K -> vec -> res (counter N)) (runS : dop K -> vec -> runOf K A) rr rc ctr m :
      nth_error (objects bcs) j = Some e -> sized pinv e -> adjointable (weakE mass e) -> (match c with CNew _ => False | _ => True end) ->
      orderly cs -> realises pinv w m -> m_rows m = m_cols m -> m_cols m = s_dofs (dom e) -> m_rows p = m_rows m -> m_cols p = 1 ->
      calls (runS w p) w p = Ok ctr ->
      let x := column_ (s_dofs (dom e)) (r_x (runS w p)) in
      finish j calls runS rr rc ((run mass (bcs ++ [c]), grun cs), Ok (w, p)) =
        ((run mass (bcs ++ [c]), grun (cs ++ [GNew (dom e) None x])), Ok (pack (length (grun cs)) (r_info (runS w p)) ctr rr rc)) /\
      orderly (cs ++ [GNew (dom e) None x]) /\ nth_error (means (cs ++ [GNew (dom e) None x])) (length (grun cs)) = Some (dom e, x) /\
      (forall l f, nth_error (means cs) l = Some f -> nth_error (means (cs ++ [GNew (dom e) None x])) l = Some f).
    Proof.
      intros HE SZ AD HC O (SH & _) SQ MC P1 P2 EC x. destruct (@obj_now bcs j e HE SZ AD c HC) as (o & Ho & A1 & _).
      assert (VX : vecFor (dom e) x) by (split; reflexivity).
      assert (LM := len_means O).
      split; [|split; [apply orderly_new; assumption|split]].
      - unfold finish, makeSystem. rewrite SH. cbn [fst snd]. replace (m_rows m =? m_cols m) with true by (symmetry; apply Nat.eqb_eq; assumption).
        rewrite P1, P2, !Nat.eqb_refl. cbn [andb bind]. rewrite EC. cbn [bind]. unfold solution. rewrite Ho. unfold alloc. cbn [bind].
        rewrite grun_app. cbn [gstep]. rewrite A1, SQ, MC. reflexivity.
      - rewrite means_app. cbn [meansNext]. rewrite LM, nth_error_app2, Nat.sub_diag by lia. reflexivity.
      - intros l f H. rewrite means_app. cbn [meansNext]. rewrite nth_error_app1; [assumption|]. apply nth_error_Some. congruence.
    Qed.
    Lemma finish_shape j w p calls runS rr rc st m : realises pinv w m -> m_rows m <> m_cols m ->
      finish (N := N) (A := A) j calls runS rr rc (st, Ok (w, p)) = (st, Throws).
    Proof.
      intros (SH & _) NE. unfold finish, makeSystem. rewrite SH. cbn [fst snd]. apply Nat.eqb_neq in NE. rewrite NE. reflexivity.
    Qed.
  End Fin.

  (** the callback *)
  Lemma calls_gmres N (absn : N -> N) rr l : forall s, fold_left (callGmres absn rr) l s =
    Ctr (c_count s + length l) (if rr then c_residuals s ++ map absn l else c_residuals s).
  Proof.
    induction l as [|a l IH]; intros [n r]; cbn [fold_left length map c_count c_residuals].
    - rewrite Nat.add_0_r, app_nil_r. destruct rr; reflexivity.
    - rewrite IH. unfold callGmres. cbn [c_count c_residuals]. rewrite Nat.add_succ_r. cbn. destruct rr; [|reflexivity]. rewrite <- app_assoc. reflexivity.
  Qed.
  Lemma calls_cg N (norm : vec -> N) rr w m b : realises pinv w m -> m_rows b = m_rows m -> m_cols b = 1 -> 
    (forall y z, meq y z -> norm y = norm z) ->
    forall xs s, (forall x, In x xs -> m_rows x = m_cols m /\ m_cols x = 1) ->
    callsCg pinv norm rr w b s xs =
    Ok (Ctr (c_count s + length xs) (if rr then c_residuals s ++ map (fun x => norm (mAdd b (mOpp (mMul m x)))) xs else c_residuals s)).
  Proof.
    intros (_ & D & _) B1 B2 NM. induction xs as [|x xs IH]; intros [n r] H; cbn [callsCg length map c_count c_residuals].
    - rewrite Nat.add_0_r, app_nil_r. destruct rr; reflexivity.
    - destruct (H x (or_introl eq_refl)) as [X1 X2]. unfold callCg. destruct rr; cbn [c_count c_residuals].
      + destruct (D x X1) as (y & Ey & My); [lia|]. rewrite Ey. cbn [bind].
        assert (MO : meq (mOpp y) (mOpp (mMul m x))). { destruct My as (Y1 & Y2 & Y3). split; [assumption|]. split; [assumption|]. cbn. intros. f_equal. apply Y3; assumption. }
        pose proof My as (Y1 & Y2 & Y3). cbn in Y1, Y2.
        destruct (@npAdd_same K b (mOpp y)) as (z & Ez & Mz); [cbn; congruence|cbn; congruence|]. rewrite Ez. cbn [bind].
        rewrite IH by (intros; apply H; right; assumption). cbn [c_count c_residuals]. rewrite Nat.add_succ_r. cbn. do 2 f_equal. rewrite <- app_assoc. cbn. do 2 f_equal.
        apply NM. eapply meq_trans; [exact Mz|]. apply meq_add; [cbn; congruence|cbn; congruence|apply meq_refl|assumption].
      + cbn [bind]. rewrite IH by (intros; apply H; right; assumption). cbn [c_count c_residuals]. rewrite Nat.add_succ_r. reflexivity.
  Qed.
End Proofs.

Section SparseForm.
  Variable K : star_ring.
  Definition isSparseOp (o : dop K) : bool := match o with Sparse _ => true | _ => false end.
  Lemma add_form (a b o : dop K) : pyAdd a b = Ok o -> isSparseOp o = isSparseOp a && isSparseOp b.
  Proof.
    unfold pyAdd. destruct a, b; try (destruct (_ && _); [|discriminate]; intros [= <-]; reflexivity);
      intros H; apply bind_ok in H as (m & _ & H); injection H as <-; reflexivity.
  Qed.
  Lemma mul_form (a b o : dop K) : pyMul a b = Ok o -> isSparseOp o = isSparseOp a && isSparseOp b.
  Proof.
    unfold pyMul. destruct a, b; try (match goal with |- (if ?c then _ else _) = _ -> _ => destruct c end; [|discriminate]; intros [= <-]; reflexivity);
      intros H; apply bind_ok in H as (m & _ & H); injection H as <-; reflexivity.
  Qed.
  Lemma scale_form (a : dop K) c : isSparseOp (pyScale a c) = isSparseOp a. Proof. destruct a; reflexivity. Qed.
  Lemma neg_form (a : dop K) : isSparseOp (pyNeg a) = isSparseOp a. Proof. destruct a; reflexivity. Qed.
  (** composite operators do not arise from sparse ones only *)
  Fixpoint proper (o : dop K) : Prop :=
    match o with
    | Sum a b | Prod a b => isSparseOp a && isSparseOp b = false /\ proper a /\ proper b
    | Scaled a _ => isSparseOp a = false /\ proper a
    | _ => True
    end.
  Lemma add_proper (a b o : dop K) : proper a -> proper b -> pyAdd a b = Ok o -> proper o.
  Proof.
    intros PA PB. unfold pyAdd.
    destruct a, b; try (destruct (_ && _); [|discriminate]; intros [= <-]; split; [reflexivity|split; assumption]);
      intros H; apply bind_ok in H as (m & _ & H); injection H as <-; exact I.
  Qed.
  Lemma mul_proper (a b o : dop K) : proper a -> proper b -> pyMul a b = Ok o -> proper o.
  Proof.
    intros PA PB. unfold pyMul.
    destruct a, b; try (match goal with |- (if ?c then _ else _) = _ -> _ => destruct c end; [|discriminate]; intros [= <-]; split; [reflexivity|split; assumption]);
      intros H; apply bind_ok in H as (m & _ & H); injection H as <-; exact I.
  Qed.
  Lemma scale_proper (a : dop K) c : proper a -> proper (pyScale a c). Proof. destruct a; cbn; auto. Qed.
  Lemma neg_proper (a : dop K) : proper a -> proper (pyNeg a). Proof. destruct a; cbn; auto. Qed.
  Lemma trans_form (a o : dop K) : proper a -> transpose a = Ok o -> isSparseOp o = isSparseOp a /\ proper o.
  Proof.
    revert o. induction a as [x|x|x|x|r c|c r|a IHa b IHb|a IHa b IHb|a IHa c]; intros o P H; cbn in H; try discriminate; try (injection H as <-; split; [reflexivity|exact I]).
    - destruct P as (Q & PA & PB). apply bind_ok in H as (y & Ey & H). apply bind_ok in H as (z & Ez & H). destruct (IHa _ PA Ey) as [F1 G1], (IHb _ PB Ez) as [F2 G2].
      split; [|eapply add_proper; [exact G1|exact G2|exact H]]. rewrite (add_form _ _ H), F1, F2. exact Q.
    - destruct P as (Q & PA & PB). apply bind_ok in H as (y & Ey & H). apply bind_ok in H as (z & Ez & H). destruct (IHb _ PB Ey) as [F1 G1], (IHa _ PA Ez) as [F2 G2].
      split; [|eapply mul_proper; [exact G1|exact G2|exact H]]. rewrite (mul_form _ _ H), F1, F2, andb_comm. exact Q.
    - destruct P as (Q & PA). apply bind_ok in H as (y & Ey & H). injection H as <-. destruct (IHa _ PA Ey) as [F G]. rewrite scale_form. split; [cbn; congruence|]. apply scale_proper. exact G.
  Qed.
  Lemma adj_form (a o : dop K) : proper a -> adjoint a = Ok o -> isSparseOp o = isSparseOp a /\ proper o.
  Proof.
    revert o. induction a as [x|x|x|x|r c|c r|a IHa b IHb|a IHa b IHb|a IHa c]; intros o P H; cbn in H; try discriminate; try (injection H as <-; split; [reflexivity|exact I]).
    - destruct P as (Q & PA & PB). apply bind_ok in H as (y & Ey & H). apply bind_ok in H as (z & Ez & H). destruct (IHa _ PA Ey) as [F1 G1], (IHb _ PB Ez) as [F2 G2].
      split; [|eapply add_proper; [exact G1|exact G2|exact H]]. rewrite (add_form _ _ H), F1, F2. exact Q.
    - destruct P as (Q & PA & PB). apply bind_ok in H as (y & Ey & H). apply bind_ok in H as (z & Ez & H). destruct (IHb _ PB Ey) as [F1 G1], (IHa _ PA Ez) as [F2 G2].
      split; [|eapply mul_proper; [exact G1|exact G2|exact H]]. rewrite (mul_form _ _ H), F1, F2, andb_comm. exact Q.
    - destruct P as (Q & PA). apply bind_ok in H as (y & Ey & H). injection H as <-. destruct (IHa _ PA Ey) as [F G]. rewrite scale_form. split; [cbn; congruence|]. apply scale_proper. exact G.
  Qed.
  Lemma build_form (e : expr K) o : build e = Ok o -> isSparseOp o = allSparse e /\ proper o.
  Proof.
    revert o. induction e as [x|x|x|x|r c|c r|a IHa b IHb|a IHa b IHb|a IHa b IHb|c a IHa|a IHa|a IHa|a IHa]; intros o H; cbn in H; try (injection H as <-; split; [reflexivity|exact I]).
    - apply bind_ok in H as (y & Ey & H). apply bind_ok in H as (z & Ez & H). destruct (IHa _ Ey) as [F1 G1], (IHb _ Ez) as [F2 G2]. split; [|eapply add_proper; [exact G1|exact G2|exact H]].
      rewrite (add_form _ _ H), F1, F2. reflexivity.
    - apply bind_ok in H as (y & Ey & H). apply bind_ok in H as (z & Ez & H). destruct (IHa _ Ey) as [F1 G1], (IHb _ Ez) as [F2 G2]. unfold pySub in H. 
      split; [|eapply add_proper; [exact G1|apply neg_proper; exact G2|exact H]]. rewrite (add_form _ _ H), neg_form, F1, F2. reflexivity.
    - apply bind_ok in H as (y & Ey & H). apply bind_ok in H as (z & Ez & H). destruct (IHa _ Ey) as [F1 G1], (IHb _ Ez) as [F2 G2]. split; [|eapply mul_proper; [exact G1|exact G2|exact H]].
      rewrite (mul_form _ _ H), F1, F2. reflexivity.
    - apply bind_ok in H as (y & Ey & H). injection H as <-. destruct (IHa _ Ey) as [F1 G1]. rewrite scale_form. split; [exact F1|apply scale_proper; exact G1].
    - apply bind_ok in H as (y & Ey & H). injection H as <-. destruct (IHa _ Ey) as [F1 G1]. rewrite neg_form. split; [exact F1|apply neg_proper; exact G1].
    - apply bind_ok in H as (y & Ey & H). destruct (IHa _ Ey) as [F1 G1]. destruct (trans_form _ G1 H) as [F2 G2]. split; [cbn; congruence|exact G2].
    - apply bind_ok in H as (y & Ey & H). destruct (IHa _ Ey) as [F1 G1]. destruct (adj_form _ G1 H) as [F2 G2]. split; [cbn; congruence|exact G2].
  Qed.
End SparseForm.
