(** C141-C146: the solvers gmres, cg and lu for boundary operators *)
From Coq Require Import List Arith Bool ZArith Lia.
Import ListNotations.
From Verif Require Import Base ArrayModel AsmModel QuadModel MatAlg PyOpModel LocalCacheProofs PyOpSpec PyOpProofs PyBopModel PyBopSpec PyBopProofs PyBopProps PyBlockModel PyBlockSpec PyBlockProofs PyBlockProps PyBbopModel PyBbopSpec PyBbopProps PyGfModel PyGfSpec PyGfProofs PyGfLists PyGfProps SlvModel SlvSpec SlvProofs.
Set Implicit Arguments.

Section Thms.
  Variable K : star_ring.
  Variable mass : space -> space -> mat K.
  Variable pinv : mat K -> mat K.
  Notation vec := (mat K).
  Hypothesis HG : goodInverse pinv.
  Hypothesis HM : massSized mass.
  Notation grun := (grun mass pinv). Notation means := (means mass pinv). Notation orderly := (orderly mass pinv).
  Notation projections := (projections mass pinv). Notation coefficients := (coefficients mass pinv).
  (** norms of residuals, and when a residual is small enough *)
  Variable N : Type.
  Variable norm : vec -> N.
  Variable absn : N -> N.
  Variable near : vec -> vec -> Prop.
  Hypothesis NE : entrywise near.
  Hypothesis NM : forall y z, meq y z -> norm y = norm z.
  (** SciPy *)
  Variable gmresRun : dop K -> vec -> runOf K N.
  Variable cgRun : dop K -> vec -> runOf K (nat -> K).
  Hypothesis GS : solves pinv near gmresRun.
  Hypothesis CS : solves pinv near cgRun.

  (** the operator: one created by the program [bcs], standing for the expression [e] (see C57) *)
  Variables (bcs : list (cmd K)) (j : nat) (e : boe K).
  Hypothesis HE : nth_error (objects bcs) j = Some e.
  Hypothesis SZ : sized pinv e.
  Hypothesis AD : adjointable (weakE mass e).
  (** the right hand side: the function [v] in the space [s], created by the program [cs] (see C93) *)
  Variables (cs : list (gcmd K)) (i : nat) (s : space) (v : vec).
  Hypothesis O : orderly cs.
  Hypothesis Nm : nth_error (means cs) i = Some (s, v).

  (** what a call returns: a new function [x] in the domain of the operator, the code of the iteration, and the numbers
      asked for; all functions there were before are unchanged *)
  Definition returns (hb : heap K) (cs' : list (gcmd K)) (st : state K * res (answer nat N)) (x : vec) (info : Z) (residuals : list N) (count : nat) (rr rc : bool) : Prop :=
    st = ((hb, grun cs'), Ok (Answer (length (grun cs)) info (if rr then Some residuals else None) (if rc then Some count else None))) /\
    orderly cs' /\ nth_error (means cs') (length (grun cs)) = Some (dom e, x) /\ vecFor (dom e) x /\
    forall l f, nth_error (means cs) l = Some f -> nth_error (means cs') l = Some f.

  (** C141: without strong form.  [q] are the projections of the right hand side onto the dual space of the operator;
      a solver that ends with code 0 has found x such that the weak form of A times x is near [q] *)
  Theorem C141_gmres rr rc : properDuals mass pinv cs -> safeQuery (grun cs) i (Some (dual e)) -> s_dofs (dom e) = s_dofs (dual e) ->
    exists w q x cs', realises pinv w (weakM mass pinv e) /\ meq q (mMul (mass s (dual e)) v) /\ let r := gmresRun w q in
      returns (run mass (bcs ++ [CWeak false j])) cs' (gmresSingle mass pinv absn gmresRun false rr rc j i (run mass bcs, grun cs)) x (r_info r) (map absn (r_calls r)) (length (r_calls r)) rr rc /\
      properDuals mass pinv cs' /\
      (r_info r = 0%Z -> near (mMul (weakM mass pinv e) x) (mMul (mass s (dual e)) v)).
  Proof.
    intros PD SQ SD. destruct (@system_weak K mass pinv HG HM bcs j e HE SZ AD cs i s v O PD Nm SQ) as (w & q & SY & Rw & Mq & Vq & OO & MM & LL & R & C).
    destruct (@finish_ok K mass pinv HG HM N N bcs j e (CWeak false j) _ w q (fun r _ _ => Ok (fold_left (callGmres absn rr) (r_calls r) (newCounter N))) gmresRun rr rc _ _
                HE SZ AD Logic.I OO Rw ltac:(congruence) C ltac:(destruct Vq; congruence) (proj2 Vq) eq_refl) as (FI & FO & FN & FK).
    exists w, q, (column_ (s_dofs (dom e)) (r_x (gmresRun w q))). eexists. split; [exact Rw|]. split; [exact Mq|]. cbn zeta. split; [|split].
    - split; [|split; [exact FO|split; [rewrite LL in FN; exact FN|split; [split; reflexivity|rewrite MM in FK; exact FK]]]].
      unfold gmresSingle. rewrite SY, FI, LL. unfold pack. rewrite calls_gmres. cbn. destruct rr; reflexivity.
    - intros c s' d IC GB. rewrite !in_app_iff in IC. destruct IC as [[IC|IC]|IC]; [eapply PD; eauto| |]; destruct IC as [<-|[]]; contradiction.
    - intros I0. eapply NE; [apply meq_refl|exact Mq|]. pose proof (GS q Rw) as G. rewrite R in G. rewrite <- SD in G. apply G; destruct Vq; congruence.
  Qed.
  (** applying the operator to the solution gives a function with the projections of the right hand side *)
  Theorem C141_gmres_applied rr rc : properDuals mass pinv cs -> safeQuery (grun cs) i (Some (dual e)) -> s_dofs (dom e) = s_dofs (dual e) ->
    exists st k info residuals count, gmresSingle mass pinv absn gmresRun false rr rc j i (run mass bcs, grun cs) = (st, Ok (Answer k info residuals count)) /\
      exists h y p, applyOp mass pinv (dom e) (ran e) (dual e) (snd (weak_form mass false j (fst st))) k (snd st) = (h, Ok y) /\
        snd (projections y None h) = Ok p /\ (info = 0%Z -> near p (mMul (mass s (dual e)) v)).
  Proof.
    intros PD SQ SD. destruct (C141_gmres rr rc PD SQ SD) as (w & q & x & cs' & Rw & Mq & (E & O' & N' & V' & _) & PD' & Z).
    do 5 eexists. split; [exact E|]. cbn [fst snd].
    assert (HE' : nth_error (objects (bcs ++ [CWeak false j])) j = Some e) by (rewrite objects_query; [exact HE|exact Logic.I]).
    destruct (@C94_operator_times_function K mass pinv HG HM _ j e false cs' _ _ _ HE' SZ AD O' N' eq_refl) as (h & g & Q & _ & _ & _ & _ & _ & (p & P1 & P2) & _).
    exists h. do 2 eexists. split; [exact Q|]. split; [exact P1|]. intros I0. eapply NE; [apply meq_sym; exact P2|apply meq_refl|]. apply Z. exact I0.
  Qed.
  (** conjugate gradients; the residuals are those of the iterates *)
  Theorem C141_cg rr rc : properDuals mass pinv cs -> safeQuery (grun cs) i (Some (dual e)) -> s_dofs (dom e) = s_dofs (dual e) ->
    exists w q x cs', realises pinv w (weakM mass pinv e) /\ meq q (mMul (mass s (dual e)) v) /\ let r := cgRun w q in
      returns (run mass (bcs ++ [CWeak false j])) cs' (cg mass pinv norm cgRun false rr rc j i (run mass bcs, grun cs)) x (r_info r)
        (map (fun z => norm (mAdd (mMul (mass s (dual e)) v) (mOpp (mMul (weakM mass pinv e) (column_ (s_dofs (dom e)) z))))) (r_calls r)) (length (r_calls r)) rr rc /\
      properDuals mass pinv cs' /\
      (r_info r = 0%Z -> near (mMul (weakM mass pinv e) x) (mMul (mass s (dual e)) v)).
  Proof.
    intros PD SQ SD. destruct (@system_weak K mass pinv HG HM bcs j e HE SZ AD cs i s v O PD Nm SQ) as (w & q & SY & Rw & Mq & Vq & OO & MM & LL & R & C).
    assert (SH : fst (shape w) = s_dofs (dom e)) by (destruct Rw as (SH & _); rewrite SH; cbn; congruence).
    assert (EC : callsCg pinv norm rr w q (newCounter N) (map (colOf (fst (shape w))) (r_calls (cgRun w q))) =
      Ok (Ctr (length (r_calls (cgRun w q))) (if rr then map (fun z => norm (mAdd (mMul (mass s (dual e)) v) (mOpp (mMul (weakM mass pinv e) (column_ (s_dofs (dom e)) z))))) (r_calls (cgRun w q)) else []))).
    { rewrite (@calls_cg K pinv N norm rr w _ q Rw) ; auto; try (destruct Vq; congruence).
      - cbn [newCounter c_count c_residuals Nat.add app]. rewrite map_length, map_map. do 2 f_equal. destruct rr; [|reflexivity]. apply map_ext. intros z. rewrite SH.
        apply NM. apply meq_add; [cbn; destruct Vq; congruence|cbn; destruct Vq; congruence|exact Mq|apply meq_refl].
      - intros x Ix. apply in_map_iff in Ix as (z & <- & _). cbn. split; [congruence|reflexivity]. }
    destruct (@finish_ok K mass pinv HG HM N (nat -> K) bcs j e (CWeak false j) _ w q (fun r w b => callsCg pinv norm rr w b (newCounter N) (map (colOf (fst (shape w))) (r_calls r))) cgRun rr rc _ _
                HE SZ AD Logic.I OO Rw ltac:(congruence) C ltac:(destruct Vq; congruence) (proj2 Vq) EC) as (FI & FO & FN & FK).
    exists w, q, (column_ (s_dofs (dom e)) (r_x (cgRun w q))). eexists. split; [exact Rw|]. split; [exact Mq|]. cbn zeta. split; [|split].
    - split; [|split; [exact FO|split; [rewrite LL in FN; exact FN|split; [split; reflexivity|rewrite MM in FK; exact FK]]]].
      unfold cg. rewrite SY, FI, LL. unfold pack. cbn. destruct rr; reflexivity.
    - intros c s' d IC GB. rewrite !in_app_iff in IC. destruct IC as [[IC|IC]|IC]; [eapply PD; eauto| |]; destruct IC as [<-|[]]; contradiction.
    - intros I0. eapply NE; [apply meq_refl|exact Mq|]. pose proof (CS q Rw) as G. rewrite R in G. rewrite <- SD in G. apply G; destruct Vq; congruence.
  Qed.
  (** operators with different numbers of degrees of freedom in domain and dual space are rejected *)
  Theorem C141_square rr rc : properDuals mass pinv cs -> safeQuery (grun cs) i (Some (dual e)) -> s_dofs (dom e) <> s_dofs (dual e) ->
    snd (gmresSingle mass pinv absn gmresRun false rr rc j i (run mass bcs, grun cs)) = Throws /\
    snd (cg mass pinv norm cgRun false rr rc j i (run mass bcs, grun cs)) = Throws.
  Proof.
    intros PD SQ SD. destruct (@system_weak K mass pinv HG HM bcs j e HE SZ AD cs i s v O PD Nm SQ) as (w & q & SY & Rw & Mq & Vq & OO & MM & LL & R & C).
    unfold gmresSingle, cg. rewrite SY. rewrite !(@finish_shape K pinv) with (m := weakM mass pinv e) by (auto; congruence). split; reflexivity.
  Qed.

  (** C142: with the strong form, for a right hand side with as many degrees of freedom as the range space; when it lies in the
      range space, A times the solution is near the right hand side *)
  Theorem C142_strong rr rc : s_dofs s = s_dofs (ran e) -> s_dofs (dom e) = s_dofs (ran e) ->
    exists w q, realises pinv w (strongM mass pinv e) /\ meq q v /\
      (let r := gmresRun w q in exists x cs',
       returns (run mass (bcs ++ [CStrong false j])) cs' (gmresSingle mass pinv absn gmresRun true rr rc j i (run mass bcs, grun cs)) x (r_info r) (map absn (r_calls r)) (length (r_calls r)) rr rc /\
       (r_info r = 0%Z -> near (mMul (strongM mass pinv e) x) v)) /\
      (let r := cgRun w q in exists x cs',
       returns (run mass (bcs ++ [CStrong false j])) cs' (cg mass pinv norm cgRun true rr rc j i (run mass bcs, grun cs)) x (r_info r)
         (map (fun z => norm (mAdd v (mOpp (mMul (strongM mass pinv e) (column_ (s_dofs (dom e)) z))))) (r_calls r)) (length (r_calls r)) rr rc /\
       (r_info r = 0%Z -> near (mMul (strongM mass pinv e) x) v)).
  Proof.
    intros SR SD. destruct (@system_strong K mass pinv HG HM bcs j e HE SZ AD cs i s v O Nm SR) as (w & q & SY & Rw & Mq & Vq & OO & MM & LL & R & C).
    exists w, q. split; [exact Rw|]. split; [exact Mq|]. split; cbn zeta.
    - destruct (@finish_ok K mass pinv HG HM N N bcs j e (CStrong false j) _ w q (fun r _ _ => Ok (fold_left (callGmres absn rr) (r_calls r) (newCounter N))) gmresRun rr rc _ _
                HE SZ AD Logic.I OO Rw ltac:(congruence) C ltac:(destruct Vq; congruence) (proj2 Vq) eq_refl) as (FI & FO & FN & FK).
      exists (column_ (s_dofs (dom e)) (r_x (gmresRun w q))). eexists. split.
      + split; [|split; [exact FO|split; [rewrite LL in FN; exact FN|split; [split; reflexivity|rewrite MM in FK; exact FK]]]].
        unfold gmresSingle. rewrite SY, FI, LL. unfold pack. rewrite calls_gmres. cbn. destruct rr; reflexivity.
      + intros I0. eapply NE; [apply meq_refl|exact Mq|]. pose proof (GS q Rw) as G. rewrite R in G. rewrite <- SD in G. apply G; destruct Vq; congruence.
    - assert (SH : fst (shape w) = s_dofs (dom e)) by (destruct Rw as (SH & _); rewrite SH; cbn [fst]; congruence).
      assert (EC : callsCg pinv norm rr w q (newCounter N) (map (colOf (fst (shape w))) (r_calls (cgRun w q))) =
        Ok (Ctr (length (r_calls (cgRun w q))) (if rr then map (fun z => norm (mAdd v (mOpp (mMul (strongM mass pinv e) (column_ (s_dofs (dom e)) z))))) (r_calls (cgRun w q)) else []))).
      { rewrite (@calls_cg K pinv N norm rr w _ q Rw) ; auto; try (destruct Vq; congruence).
        - cbn [newCounter c_count c_residuals Nat.add app]. rewrite map_length, map_map. do 2 f_equal. destruct rr; [|reflexivity]. apply map_ext. intros z. rewrite SH.
          apply NM. apply meq_add; [cbn [mOpp mMul m_rows m_cols column_ colOf]; destruct Vq; congruence|cbn [mOpp mMul m_rows m_cols column_ colOf]; destruct Vq; congruence|exact Mq|apply meq_refl].
        - intros x Ix. apply in_map_iff in Ix as (z & <- & _). cbn [colOf m_rows m_cols]. split; [congruence|reflexivity]. }
      destruct (@finish_ok K mass pinv HG HM N (nat -> K) bcs j e (CStrong false j) _ w q (fun r w b => callsCg pinv norm rr w b (newCounter N) (map (colOf (fst (shape w))) (r_calls r))) cgRun rr rc _ _
                HE SZ AD Logic.I OO Rw ltac:(congruence) C ltac:(destruct Vq; congruence) (proj2 Vq) EC) as (FI & FO & FN & FK).
      exists (column_ (s_dofs (dom e)) (r_x (cgRun w q))). eexists. split.
      + split; [|split; [exact FO|split; [rewrite LL in FN; exact FN|split; [split; reflexivity|rewrite MM in FK; exact FK]]]].
        unfold cg. rewrite SY, FI, LL. unfold pack. cbn. destruct rr; reflexivity.
      + intros I0. eapply NE; [apply meq_refl|exact Mq|]. pose proof (CS q Rw) as G. rewrite R in G. rewrite <- SD in G. apply G; destruct Vq; congruence.
  Qed.
  (** C143: a right hand side whose space has another number of degrees of freedom than the range space is rejected, and
      nothing changes *)
  Theorem C143_other_space_partial rr rc : s_dofs s <> s_dofs (ran e) ->
    gmresSingle mass pinv absn gmresRun true rr rc j i (run mass bcs, grun cs) = ((run mass bcs, grun cs), Throws) /\
    cg mass pinv norm cgRun true rr rc j i (run mass bcs, grun cs) = ((run mass bcs, grun cs), Throws).
  Proof.
    intros SR. destruct (@read_strong K mass pinv HG HM bcs j e HE SZ AD) as (w & o & Ho & A1 & A2 & A3 & _).
    destruct (@read_coefficients K mass pinv HG HM cs i s v O Nm) as (c & g & Q & Eg & Gs & _).
    assert (SY : system mass pinv true j i (run mass bcs, grun cs) = ((run mass bcs, grun cs), Throws)).
    { unfold system. rewrite Ho, Eg, A2, Gs. replace (compat (ran e) s) with false by (symmetry; apply Nat.eqb_neq; congruence). reflexivity. }
    unfold gmresSingle, cg. rewrite SY. split; reflexivity.
  Qed.

  (** A times the solution is near the right hand side: as functions in the range space *)
  Theorem C142_strong_applied rr rc : s = ran e -> s_dofs (dom e) = s_dofs (ran e) ->
    exists st k info residuals count, gmresSingle mass pinv absn gmresRun true rr rc j i (run mass bcs, grun cs) = (st, Ok (Answer k info residuals count)) /\
      exists h y g c, applyOp mass pinv (dom e) (ran e) (dual e) (snd (weak_form mass false j (fst st))) k (snd st) = (h, Ok y) /\
        nth_error h y = Some g /\ g_space g = s /\ snd (coefficients y h) = Ok c /\ (info = 0%Z -> near c v).
  Proof.
    intros ES SD. destruct (C142_strong rr rc (f_equal s_dofs ES) SD) as (w & q & Rw & Mq & (x & cs' & (E & O' & N' & V' & _) & Z) & _).
    do 5 eexists. split; [exact E|]. cbn [fst snd].
    assert (HE' : nth_error (objects (bcs ++ [CStrong false j])) j = Some e) by (rewrite objects_query; [exact HE|exact Logic.I]).
    destruct (@C94_operator_times_function K mass pinv HG HM _ j e false cs' _ _ _ HE' SZ AD O' N' eq_refl) as (h & g & Q & _ & _ & G & GSP & _ & _ & (c & P1 & P2) & _).
    exists h. do 2 eexists. exists c. split; [exact Q|]. split; [exact G|]. split; [congruence|]. split; [exact P1|]. intros I0. eapply NE; [apply meq_sym; exact P2|apply meq_refl|]. apply Z. exact I0.
  Qed.

  (** C145: lu, for operators that are not stored as sparse matrices: the solution of the dense system, in the domain *)
  Variable F : Type.
  Variable solve : mat K -> vec -> res vec.
  Variable luFactor : mat K -> res F.
  Variable luSolve : F -> vec -> res vec.
  Hypothesis SS : directSolve near solve.
  Hypothesis LS : directSolve near (fun m b => bind (luFactor m) (fun f => luSolve f b)).
  Definition solved (hb : heap K) (st : state K * res nat) (x : vec) : Prop :=
    exists cs', st = ((hb, grun cs'), Ok (length (grun cs))) /\ orderly cs' /\ nth_error (means cs') (length (grun cs)) = Some (dom e, x) /\
      (forall l f, nth_error (means cs) l = Some f -> nth_error (means cs') l = Some f) /\
      near (mMul (weakM mass pinv e) x) (mMul (mass s (dual e)) v).
  Lemma solved_new hb hg k x q p :
    projections i (Some (dual e)) (grun cs) = (grun (cs ++ [GProj i (Some (dual e))]), Ok p) ->
    orderly (cs ++ [GProj i (Some (dual e))]) -> means (cs ++ [GProj i (Some (dual e))]) = means cs ->
    length (grun (cs ++ [GProj i (Some (dual e))])) = length (grun cs) ->
    alloc (fromCoefficients (dom e) None x) (grun (cs ++ [GProj i (Some (dual e))])) = (hg, k) -> vecFor (dom e) x ->
    near q (mMul (mass s (dual e)) v) -> meq q (mMul (weakM mass pinv e) x) -> solved hb ((hb, hg), k) x.
  Proof.
    intros Q OO MM LL AL VX NQ MQ. exists ((cs ++ [GProj i (Some (dual e))]) ++ [GNew (dom e) None x]). unfold alloc in AL. injection AL as <- <-.
    split; [rewrite (@grun_app K mass pinv _ (GNew (dom e) None x)), <- LL; reflexivity|]. split; [apply orderly_new; assumption|].
    rewrite (@means_app K mass pinv _ (GNew (dom e) None x)), MM. cbn [meansNext]. pose proof (len_means HG HM O) as LM. split; [|split].
    - rewrite LM, nth_error_app2, Nat.sub_diag by lia. reflexivity.
    - intros l f H. rewrite nth_error_app1; [assumption|]. apply nth_error_Some. congruence.
    - eapply NE; [exact MQ|apply meq_refl|exact NQ].
  Qed.
  Theorem C145_lu : properDuals mass pinv cs -> safeQuery (grun cs) i (Some (dual e)) -> s_dofs (dom e) = s_dofs (dual e) -> 0 < s_dofs (dom e) ->
    allSparse (weakE mass e) = false ->
    let st := lu mass pinv solve luSolve None j i (run mass bcs, grun cs) in
    exists m q, meq m (weakM mass pinv e) /\ meq q (mMul (mass s (dual e)) v) /\
      (forall x, solve m q = Ok x -> solved (run mass (bcs ++ [CWeak false j])) st x) /\
      (solve m q = Throws -> snd st = Throws).
  Proof.
    intros PD SQ SD POS SP st. destruct (@read_weak K mass pinv HG HM bcs j e HE SZ AD) as (w & o & Ho & A1 & A2 & A3 & W & Rw & B & R & C).
    destruct (@read_projections K mass pinv HG HM cs i s v (dual e) O PD Nm SQ) as (q & g & Q & Eg & Gs & M & VP & _ & OO & MM & LL).
    pose proof Rw as (_ & _ & _ & AM). destruct AM as (m & Em & Mm); [congruence|]. exists m, q. split; [exact Mm|]. split; [exact M|].
    assert (NS : isSparseOp w = false) by (rewrite (proj1 (build_form _ B)); exact SP).
    assert (ST : st = match bind (Ok q) (solve m) with
        | Ok x => let '(hg2, k) := alloc (fromCoefficients (dom e) None x) (grun (cs ++ [GProj i (Some (dual e))])) in ((run mass (bcs ++ [CWeak false j]), hg2), k)
        | Throws => ((run mass (bcs ++ [CWeak false j]), grun (cs ++ [GProj i (Some (dual e))])), Throws)
        | Undefined => ((run mass (bcs ++ [CWeak false j]), grun (cs ++ [GProj i (Some (dual e))])), Undefined)
        end).
    { unfold st, lu. rewrite Ho, W, A1, A3. destruct w; try discriminate NS; rewrite Em, Q; reflexivity. }
    split.
    - intros x Ex. rewrite ST. cbn [bind]. rewrite Ex. destruct (alloc _ _) as [hg k] eqn:AL.
      pose proof Mm as (M1 & M2 & _). destruct VP as [V1 V2]. destruct (SS Ex) as (X1 & X2 & X3); [congruence|congruence|exact V2|].
      eapply solved_new; try eassumption; [split; congruence| |].
      + eapply NE; [apply meq_refl|exact M|exact X3].
      + apply meq_mul; [congruence|exact Mm|apply meq_refl].
    - intros Ex. rewrite ST. cbn [bind]. rewrite Ex. reflexivity.
  Qed.
  (** C146: with the factors of the matrix of the operator, for every operator *)
  Theorem C146_lu_factors_partial m f : meq m (weakM mass pinv e) -> luFactor m = Ok f ->
    properDuals mass pinv cs -> safeQuery (grun cs) i (Some (dual e)) -> s_dofs (dom e) = s_dofs (dual e) ->
    let st := lu mass pinv solve luSolve (Some f) j i (run mass bcs, grun cs) in
    exists q, meq q (mMul (mass s (dual e)) v) /\
      (forall x, luSolve f q = Ok x -> solved (run mass bcs) st x) /\ (luSolve f q = Throws -> snd st = Throws).
  Proof.
    intros Mm Ef PD SQ SD st. destruct (@read_weak K mass pinv HG HM bcs j e HE SZ AD) as (w & o & Ho & A1 & A2 & A3 & W & Rw & B & R & C).
    destruct (@read_projections K mass pinv HG HM cs i s v (dual e) O PD Nm SQ) as (q & g & Q & Eg & Gs & M & VP & _ & OO & MM & LL).
    exists q. split; [exact M|].
    assert (ST : st = match bind (Ok q) (luSolve f) with
        | Ok x => let '(hg2, k) := alloc (fromCoefficients (dom e) None x) (grun (cs ++ [GProj i (Some (dual e))])) in ((run mass bcs, hg2), k)
        | Throws => ((run mass bcs, grun (cs ++ [GProj i (Some (dual e))])), Throws)
        | Undefined => ((run mass bcs, grun (cs ++ [GProj i (Some (dual e))])), Undefined)
        end).
    { unfold st, lu. rewrite Ho, A1, A3, Q. reflexivity. }
    split.
    - intros x Ex. rewrite ST. cbn [bind]. rewrite Ex. destruct (alloc _ _) as [hg k] eqn:AL.
      pose proof Mm as (M1 & M2 & _). destruct VP as [V1 V2]. destruct (@LS m q x) as (X1 & X2 & X3); [rewrite Ef; exact Ex|congruence|congruence|exact V2|].
      eapply solved_new; try eassumption; [split; congruence| |].
      + eapply NE; [apply meq_refl|exact M|exact X3].
      + apply meq_mul; [congruence|exact Mm|apply meq_refl].
    - intros Ex. rewrite ST. cbn [bind]. rewrite Ex. reflexivity.
  Qed.
  (** compute_lu_factors raises for every operator, and lu without factors for every operator stored as a sparse matrix *)
  Theorem C146_lu_factors_refuted :
    snd (computeLuFactors mass luFactor j (run mass bcs)) = Throws /\
    (properDuals mass pinv cs -> safeQuery (grun cs) i (Some (dual e)) -> allSparse (weakE mass e) = true ->
     snd (lu mass pinv solve luSolve None j i (run mass bcs, grun cs)) = Throws).
  Proof.
    destruct (@read_weak K mass pinv HG HM bcs j e HE SZ AD) as (w & o & Ho & A1 & A2 & A3 & W & Rw & B & R & C). split.
    - unfold computeLuFactors. rewrite W. reflexivity.
    - intros PD SQ SP. destruct (@read_projections K mass pinv HG HM cs i s v (dual e) O PD Nm SQ) as (q & g & Q & _).
      assert (NS : isSparseOp w = true) by (rewrite (proj1 (build_form _ B)); exact SP).
      unfold lu. rewrite Ho, W, A1, A3. destruct w; try discriminate NS. rewrite Q. reflexivity.
  Qed.
End Thms.

(** ---- a solver that tries x = b ---- *)
Definition sameColumn (n : nat) (y b : mat Zsr) : bool := forallb (fun i => Z.eqb (m_at y i 0) (m_at b i 0)) (seq 0 n).
Definition tryRun A (w : dop Zsr) (b : mat Zsr) : runOf Zsr A :=
  Run [] (fun i => m_at b i 0) (match dot (@mT Zsr) w b with Ok y => if sameColumn (m_rows b) y b then 0%Z else 1%Z | _ => 1%Z end).
Lemma try_solves A : solves (@mT Zsr) (@meq Zsr) (@tryRun A).
Proof.
  intros w m b (_ & D & _) SQ B1 B2 I0. unfold tryRun in *. cbn [r_info r_x] in *. destruct (D b) as (y & Ey & Y1 & Y2 & Y3); [congruence|lia|]. rewrite Ey in I0.
  destruct (sameColumn (m_rows b) y b) eqn:SC; [|discriminate]. unfold sameColumn in SC. rewrite forallb_forall in SC.
  assert (MB : meq (column_ (m_rows m) (fun i => m_at b i 0)) b). { split; [cbn; congruence|]. split; [cbn; congruence|]. cbn. intros i k Hi Hk. replace k with 0 by lia. reflexivity. }
  eapply meq_trans; [apply meq_mul; [cbn; congruence|apply meq_refl|exact MB]|]. cbn in Y1, Y2. split; [cbn; congruence|]. split; [reflexivity|].
  intros i k Hi Hk. cbn in Hi, Hk. rewrite <- Y3 by (rewrite ?Y1, ?Y2; assumption). replace k with 0 by lia. apply Z.eqb_eq, SC, in_seq. lia.
Qed.
Lemma meq_entrywise K : entrywise (@meq K).
Proof. intros y y' b b' A B C. eapply meq_trans; [apply meq_sym; exact A|]. eapply meq_trans; [exact C|exact B]. Qed.
Definition idE : expr Zsr := EDense (mat2 1 0 0 1).
Definition opId (d r t : space) : list (cmd Zsr) := [CNew (NElem d r t idE)].
Lemma opId_sized d r t : s_dofs d = 2 -> s_dofs t = 2 -> sized (@mT Zsr) (OElem d r t idE).
Proof. intros A B. eexists. split; [reflexivity|]. split; cbn; congruence. Qed.
Lemma single_orderly c : fits (@mT Zsr) [] c -> (match c with GProj _ _ => False | _ => True end) -> orderly massAB (@mT Zsr) [c].
Proof. intros F S l d r E. destruct l as [|x l]; [|destruct l; discriminate]. cbn in E. injection E as <- <-. split; [exact F|]. destruct c; try exact Logic.I; destruct S. Qed.

(** C144: a right hand side given by its projections onto the dual space of the operator is the right hand side of the system *)
Theorem C144_projected_rhs_partial K (mass : space -> space -> mat K) (pinv : mat K -> mat K) N (absn : N -> N) (near : mat K -> mat K -> Prop) gmresRun :
  goodInverse pinv -> massSized mass -> entrywise near -> solves pinv near gmresRun ->
  forall bcs j e cs s p rr rc, nth_error (objects bcs) j = Some e -> sized pinv e -> adjointable (weakE mass e) ->
    orderly mass pinv cs -> properDuals mass pinv cs -> properDual mass pinv s (dual e) -> vecFor (dual e) p -> s_dofs (dom e) = s_dofs (dual e) ->
    let cs1 := cs ++ [GProjd s (Some (dual e)) p] in
    exists hb cs' x info residuals count,
      gmresSingle mass pinv absn gmresRun false rr rc j (length (grun mass pinv cs)) (run mass bcs, grun mass pinv cs1) =
        ((hb, grun mass pinv cs'), Ok (Answer (length (grun mass pinv cs1)) info residuals count)) /\
      nth_error (means mass pinv cs') (length (grun mass pinv cs1)) = Some (dom e, x) /\
      (info = 0%Z -> near (mMul (weakM mass pinv e) x) p).
Proof.
  intros HG HM NE GS bcs j e cs s p rr rc HE SZ AD O PD PP VP SD cs1.
  assert (LM := len_means HG HM O).
  assert (O1 : orderly mass pinv cs1) by (apply app_orderly; [exact O|exact VP|exact Logic.I]).
  assert (PD1 : properDuals mass pinv cs1). { intros c s' d IC GB. unfold cs1 in IC. rewrite in_app_iff in IC. destruct IC as [IC|[<-|[]]]; [eapply PD; eauto|]. destruct GB as [-> ->]. exact PP. }
  assert (N1 : nth_error (means mass pinv cs1) (length (grun mass pinv cs)) = Some (s, mMul (pinv (mass s (dual e))) p)).
  { unfold cs1. rewrite means_app. cbn [meansNext dualOf]. rewrite LM, nth_error_app2, Nat.sub_diag by lia. reflexivity. }
  assert (SQ : safeQuery (grun mass pinv cs1) (length (grun mass pinv cs)) (Some (dual e))).
  { intros g t H _ [= <-]. unfold cs1 in H. rewrite grun_app in H. cbn [gstep] in H. rewrite nth_error_app2, Nat.sub_diag in H by lia. injection H as <-. reflexivity. }
  destruct (@C141_gmres K mass pinv HG HM N absn near NE gmresRun GS bcs j e HE SZ AD cs1 _ _ _ O1 N1 rr rc PD1 SQ SD) as (w & q & x & cs' & Rw & Mq & (E & O' & N' & V' & _) & PD' & Z).
  do 6 eexists. split; [exact E|]. split; [exact N'|]. intros I0. eapply NE; [apply meq_refl|apply PP; exact VP|]. apply Z. exact I0.
Qed.
(** given by its projections onto another dual space, the solver reports success for another right hand side *)
Theorem C144_projected_rhs_refuted :
  exists (bcs : list (cmd Zsr)) j e cs i s v hb hg k c,
    nth_error (objects bcs) j = Some e /\ sized (@mT Zsr) e /\ adjointable (weakE massAB e) /\ orderly massAB (@mT Zsr) cs /\ properDuals massAB (@mT Zsr) cs /\
    properDual massAB (@mT Zsr) s (dual e) /\ nth_error (means massAB (@mT Zsr) cs) i = Some (s, v) /\ s_dofs (dom e) = s_dofs (dual e) /\
    solves (@mT Zsr) (@meq Zsr) (@tryRun Z) /\
    gmresSingle massAB (@mT Zsr) (fun z : Z => z) (@tryRun Z) false false false j i (run massAB bcs, grun massAB (@mT Zsr) cs) = ((hb, hg), Ok (Answer k 0%Z None None)) /\
    snd (coefficients massAB (@mT Zsr) k hg) = Ok c /\ ~ meq (mMul (weakM massAB (@mT Zsr) e) c) (mMul (massAB s (dual e)) v).
Proof.
  exists (opId spA spA spB), 0, (OElem spA spA spB idE), [GProjd spA (Some spA) (vec2 1 2)], 0, spA. do 5 eexists. split; [reflexivity|]. split; [apply opId_sized; reflexivity|].
  split; [repeat split|]. split; [apply single_orderly; [split; reflexivity|exact Logic.I]|]. split; [intros c s d [<-|[]] [-> ->]; apply proper22; reflexivity|].
  split; [apply proper22; reflexivity|]. split; [reflexivity|]. split; [reflexivity|]. split; [apply try_solves|]. split; [vm_compute; reflexivity|]. split; [vm_compute; reflexivity|].
  intros (_ & _ & H). specialize (H 0 0). vm_compute in H. specialize (H ltac:(auto) ltac:(auto)). discriminate.
Qed.
(** C143: a right hand side from another space with as many degrees of freedom is accepted with the strong form: the solver reports
    success, and A times the solution has other projections than the right hand side *)
Theorem C143_other_space_refuted :
  exists (bcs : list (cmd Zsr)) j e cs i s v hb hg k c,
    nth_error (objects bcs) j = Some e /\ sized (@mT Zsr) e /\ adjointable (weakE massAB e) /\ orderly massAB (@mT Zsr) cs /\
    nth_error (means massAB (@mT Zsr) cs) i = Some (s, v) /\ s <> ran e /\ solves (@mT Zsr) (@meq Zsr) (@tryRun Z) /\
    gmresSingle massAB (@mT Zsr) (fun z : Z => z) (@tryRun Z) true false false j i (run massAB bcs, grun massAB (@mT Zsr) cs) = ((hb, hg), Ok (Answer k 0%Z None None)) /\
    snd (coefficients massAB (@mT Zsr) k hg) = Ok c /\ ~ meq (mMul (weakM massAB (@mT Zsr) e) c) (mMul (massAB s (dual e)) v).
Proof.
  exists (opId spA spA spA), 0, (OElem spA spA spA idE), [GNew spB None (vec2 1 2)], 0, spB. do 5 eexists. split; [reflexivity|]. split; [apply opId_sized; reflexivity|].
  split; [repeat split|]. split; [apply single_orderly; [split; reflexivity|exact Logic.I]|].
  split; [reflexivity|]. split; [discriminate|]. split; [apply try_solves|]. split; [vm_compute; reflexivity|]. split; [vm_compute; reflexivity|].
  intros (_ & _ & H). specialize (H 0 0). vm_compute in H. specialize (H ltac:(auto) ltac:(auto)). discriminate.
Qed.

(** the hypotheses of C141, C142, C145: a program that builds sums, reads and changes functions; the solver finds the solution *)
Definition progRhs : list (gcmd Zsr) := [GNew spA None (vec2 1 2); GProjd spA (Some spB) (vec2 3 4); GAdd 0 1; GProj 0 (Some spA); GSet 0 (vec2 5 6)].
Example C141_example :
  orderly massAB (@mT Zsr) progRhs /\ properDuals massAB (@mT Zsr) progRhs /\ safeQuery (grun massAB (@mT Zsr) progRhs) 1 (Some spB) /\
  nth_error (objects (opId spA spA spB)) 0 = Some (OElem spA spA spB idE) /\ sized (@mT Zsr) (OElem spA spA spB idE) /\
  allSparse (weakE massAB (OElem spA spA spB idE)) = false /\
  exists st, gmresSingle massAB (@mT Zsr) (fun z : Z => z) (@tryRun Z) false true true 0 1 (run massAB (opId spA spA spB), grun massAB (@mT Zsr) progRhs) = (st, Ok (Answer 3 0%Z (Some []) (Some 0))) /\
    exists c, snd (coefficients massAB (@mT Zsr) 3 (snd st)) = Ok c /\ (m_at c 0 0, m_at c 1 0) = (3, 4)%Z.
Proof.
  split.
  { intros l c r E. unfold progRhs in E. symmetry in E. split_history l E; try (destruct l; discriminate).
    all: split; [try exact Logic.I; vm_compute; auto|try exact Logic.I].
    all: try (intros s w H; vm_compute in H; injection H as <- _; split; reflexivity).
    all: intros g t H D ET; vm_compute in H; injection H as <-; cbn in D; discriminate. }
  split. { intros c s d H G. unfold progRhs in H. repeat (destruct H as [<- | H]; [cbn in G; try contradiction; destruct G as [-> ->]; apply proper22; reflexivity|]). destruct H. }
  split. { intros g t H D [= <-]. vm_compute in H. injection H as <-. vm_compute in D. first [discriminate D | reflexivity]. }
  split; [reflexivity|]. split; [apply opId_sized; reflexivity|]. split; [reflexivity|]. eexists. split; [vm_compute; reflexivity|]. eexists. split; vm_compute; reflexivity.
Qed.
Example C141_cg_example : solves (@mT Zsr) (@meq Zsr) (@tryRun (nat -> Zsr)) /\
  exists st, cg massAB (@mT Zsr) (fun v => m_at v 0 0) (@tryRun (nat -> Zsr)) true true true 0 0 (run massAB (opId spA spA spA), grun massAB (@mT Zsr) progRhs) = (st, Ok (Answer 3 0%Z (Some []) (Some 0))).
Proof. split; [apply try_solves|]. eexists. vm_compute. reflexivity. Qed.
(** a direct solver for diagonal matrices with entries 1 and -1 *)
Definition signSolve (m b : mat Zsr) : res (mat Zsr) :=
  let x := @Mat Zsr (m_rows b) 1 (fun i _ => Z.mul (m_at m i i) (m_at b i 0)) in
  if sameColumn (m_rows b) (mMul m x) b then Ok x else Throws.
Lemma sign_direct : directSolve (@meq Zsr) signSolve.
Proof.
  intros m b x H SQ B1 B2. unfold signSolve in H. destruct (sameColumn _ _ b) eqn:E; [|discriminate]. injection H as <-. split; [exact B1|]. split; [reflexivity|].
  split; [cbn; congruence|]. split; [cbn; congruence|]. intros i k Hi Hk. cbn in Hi, Hk. replace k with 0 by lia. unfold sameColumn in E. rewrite forallb_forall in E.
  apply Z.eqb_eq, E, in_seq. lia.
Qed.
Definition negE : expr Zsr := EDense (mat2 1 0 0 (-1)).
Example C145_example : exists st, lu massAB (@mT Zsr) signSolve (fun f b => signSolve f b) None 0 1 (run massAB [CNew (NElem spA spA spB negE)], grun massAB (@mT Zsr) progRhs) = (st, Ok 3) /\
  exists c, snd (coefficients massAB (@mT Zsr) 3 (snd st)) = Ok c /\ (m_at c 0 0, m_at c 1 0) = (3, -4)%Z.
Proof. eexists. split; [vm_compute; reflexivity|]. eexists. split; vm_compute; reflexivity. Qed.
Example C146_example : directSolve (@meq Zsr) (fun m b => bind (Ok m) (fun f => signSolve f b)) /\ allSparse (ESparse (mat2 1 0 0 1)) = true.
Proof. split; [exact sign_direct|reflexivity]. Qed.

Print Assumptions C141_gmres.
Print Assumptions C141_gmres_applied.
Print Assumptions C141_cg.
Print Assumptions C141_square.
Print Assumptions C142_strong.
Print Assumptions C142_strong_applied.
Print Assumptions C143_other_space_partial.
Print Assumptions C143_other_space_refuted.
Print Assumptions C144_projected_rhs_partial.
Print Assumptions C144_projected_rhs_refuted.
Print Assumptions C145_lu.
Print Assumptions C146_lu_factors_partial.
Print Assumptions C146_lu_factors_refuted.
