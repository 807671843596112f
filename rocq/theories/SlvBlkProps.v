(** C147, C148: gmres for blocked operators and lists of grid functions *)
From Coq Require Import List Arith Bool ZArith Lia.
Import ListNotations.
From Verif Require Import Base ArrayModel AsmModel QuadModel MatAlg PyOpModel LocalCacheProofs PyOpSpec PyOpProofs PyBopModel PyBopSpec PyBopProofs PyBopProps PyBlockModel PyBlockSpec PyBlockProofs PyBlockProps PyBbopModel PyBbopSpec PyBbopProofs PyBbopHist PyBbopProps PyGfModel PyGfSpec PyGfProofs PyGfLists PyGfProps SlvModel SlvSpec SlvProofs.
Set Implicit Arguments.

Section Thms.
  Variable K : star_ring.
  Variable mass : space -> space -> mat K.
  Variable pinv : mat K -> mat K.
  Notation vec := (mat K).
  Hypothesis HG : goodInverse pinv.
  Hypothesis HM : massSized mass.
  Notation grun := (grun mass pinv). Notation means := (means mass pinv). Notation orderly := (orderly mass pinv).
  Notation coefficients := (coefficients mass pinv).
  Variable N : Type.
  Variable absn : N -> N.
  Variable near : vec -> vec -> Prop.
  Hypothesis NE : entrywise near.
  Variable bgmresRun : bop K -> vec -> runOf K N.
  Hypothesis BS : bsolves pinv near bgmresRun.

  Variables (bcs : list (bcmd K)) (j : nat) (ex : bexpr K) (r : list (option space)) (dual dom : list space) (m : mat K).
  Hypothesis SE : setEarly mass bcs.
  Hypothesis SP : hasSpaces (nodes (brun mass bcs)) j r (map Some dual) (map Some dom).
  Hypothesis W : weakIs mass (nodes (brun mass bcs)) j ex.
  Hypothesis V : hasValue pinv ex (map s_dofs dual) (map s_dofs dom) m.

  (** the functions of a program are still there, with the same coefficients *)
  Definition stillThere (cs : list (gcmd K)) (h : gheap K) : Prop := forall i s v, nth_error (means cs) i = Some (s, v) ->
    exists g c, nth_error h i = Some g /\ g_space g = s /\ snd (coefficients i h) = Ok c /\ meq c v.
  (** the functions [gs] lie in the spaces [ss] and have the coefficients [x], one after the other *)
  Definition functionsOf (ss : list space) (x : vec) (gs : list (gf K)) : Prop := length gs = length ss /\
    exists cs, isStack (map s_dofs ss) cs x /\
      forall k s, nth_error ss k = Some s -> exists g c, nth_error gs k = Some g /\ g_space g = s /\ nth_error cs k = Some c /\ snd (coefficients k gs) = Ok c.

  Lemma known_some ss : known (map Some ss) = Ok ss.
  Proof. unfold known. induction ss as [|s ss IH]; [reflexivity|]. cbn. rewrite IH. reflexivity. Qed.
  Lemma nodes_spaces h : nodes h = nodes (brun mass bcs) -> spacesAt (S (length h)) h j = Some (r, map Some dual, map Some dom).
  Proof.
    intros E. assert (L : j < length (nodes h)). { rewrite E. inversion SP; apply nth_error_Some; congruence. }
    assert (OL : older (nodes h)) by (rewrite E; apply brun_older).
    destruct (@spacesAt_ok K (nodes h) OL h (S (length h)) j eq_refl) as (r' & d' & c' & A & B); [rewrite nodes_length in L; lia|assumption|].
    rewrite E in B. destruct (spaces_det SP B) as (-> & -> & ->). exact A.
  Qed.
  Lemma functions_ok x gs : m_rows x = list_sum (map s_dofs dom) -> m_cols x = 1 -> listFromCoefficients x 0 dom = gs -> functionsOf dom x gs.
  Proof.
    intros R C E. destruct (@fromCoeffs_ok K x dom 0 gs E) as [L F]. split; [exact L|].
    exists (map (fun k => rowSlice x (off (map s_dofs dom) k) (nth k (map s_dofs dom) 0)) (seq 0 (length dom))). split.
    - split; [assumption|]. split; [assumption|]. split; [rewrite !map_length, seq_length; reflexivity|]. intros k v Nk. rewrite nth_error_map in Nk.
      destruct (nth_error (seq 0 (length dom)) k) as [k'|] eqn:Ek; [|discriminate]. cbn in Nk. injection Nk as <-.
      assert (k < length dom) as Lk. { assert (k < length (seq 0 (length dom))) by (apply nth_error_Some; congruence). rewrite seq_length in H. exact H. }
      rewrite nth_error_nth' with (d := 0) in Ek by (rewrite seq_length; exact Lk). rewrite seq_nth in Ek by exact Lk. injection Ek as <-. apply meq_refl.
    - intros k s Nk. specialize (F _ _ Nk). do 2 eexists. split; [exact F|]. split; [reflexivity|].
      assert (k < length dom) as Lk by (apply nth_error_Some; congruence). split.
      + rewrite nth_error_map, nth_error_nth' with (d := 0) by (rewrite seq_length; exact Lk). rewrite seq_nth by exact Lk. reflexivity.
      + unfold PyGfModel.coefficients. rewrite F. cbn [fromCoefficients g_coeffs snd]. cbn [Nat.add]. do 2 f_equal. symmetry. apply nth_error_nth. rewrite nth_error_map, Nk. reflexivity.
  Qed.
  Lemma blocked_finish strong rr rc l st hb hg w q R M :
    bsystem mass pinv strong j l st = ((hb, hg), Ok (w, q)) -> nodes hb = nodes (brun mass bcs) -> brealises pinv w R (map s_dofs dom) M ->
    list_sum R = list_sum (map s_dofs dom) -> m_rows M = list_sum R -> m_cols M = list_sum (map s_dofs dom) -> m_rows q = list_sum R -> m_cols q = 1 ->
    let x := column_ (list_sum R) (r_x (bgmresRun w q)) in
    exists gs, gmresBlocked mass pinv absn bgmresRun strong rr rc j l st = ((hb, hg), Ok (Answer gs (r_info (bgmresRun w q))
        (if rr then Some (map absn (r_calls (bgmresRun w q))) else None) (if rc then Some (length (r_calls (bgmresRun w q))) else None))) /\
      functionsOf dom x gs /\ (r_info (bgmresRun w q) = 0%Z -> near (mMul M x) q).
  Proof.
    intros BSY ND BR SQ MR MC Q1 Q2 x. pose proof BR as (_ & _ & SH & _).
    exists (listFromCoefficients x 0 dom). split; [|split].
    - unfold gmresBlocked. rewrite BSY. unfold makeSystem. rewrite SH. cbn [fst snd]. rewrite Q1, Q2, <- SQ, !Nat.eqb_refl. cbn [andb bind].
      rewrite (nodes_spaces hb ND). rewrite known_some. cbn [bind]. unfold pack. rewrite calls_gmres. cbn [newCounter c_count c_residuals Nat.add app]. destruct rr; reflexivity.
    - apply functions_ok; [cbn; exact SQ|reflexivity|reflexivity].
    - intros I0. apply (@BS w R (map s_dofs dom) M q); auto.
  Qed.
  Lemma blocked_refuses strong rr rc l st st' w q R C M :
    bsystem mass pinv strong j l st = (st', Ok (w, q)) -> brealises pinv w R C M -> list_sum R <> list_sum C \/ m_rows q <> list_sum R ->
    snd (gmresBlocked mass pinv absn bgmresRun strong rr rc j l st) = Throws.
  Proof.
    intros BSY (_ & _ & SH & _) D. unfold gmresBlocked. rewrite BSY. destruct st' as [hb hg]. unfold makeSystem. rewrite SH. cbn [fst snd].
    destruct D as [D|D]; apply Nat.eqb_neq in D; rewrite D; [reflexivity|]. rewrite andb_false_r. reflexivity.
  Qed.
  Lemma value_dims e R C n : hasValue pinv e R C n -> m_rows n = list_sum R /\ m_cols n = list_sum C.
  Proof. induction 1 as [bs R C M n L1 L2 E1 E2 A1 A2 NR (D1 & D2 & _)| | | | |]; cbn; auto; intuition. Qed.
  Lemma weak_now : exists hb w, bweak_form mass false j (brun mass bcs) = (hb, Ok w) /\ nodes hb = nodes (brun mass bcs) /\
    brealises pinv w (map s_dofs dual) (map s_dofs dom) m.
  Proof.
    destruct (C91_blocked_cache_partial mass HG) as (A & _). destruct (A bcs j false ex _ _ m SE V) as [B _]. destruct (B W) as (w & E & R).
    destruct (bweak_form mass false j (brun mass bcs)) as [hb r'] eqn:Q. cbn in E. subst r'. exists hb, w. split; [reflexivity|]. split; [|exact R].
    pose proof (bweak_nodes mass (S (length (brun mass bcs))) false j (brun mass bcs)) as BN. unfold bweak_form in Q. rewrite Q in BN. exact BN.
  Qed.
  Lemma there P cs h : Forall2 (ginv mass pinv P) h (means cs) -> stillThere cs h.
  Proof.
    intros I i s v Ni. destruct (@coefficients_ok K mass pinv HM HG P _ _ i s v I Ni) as (c & h' & Q & M & _). destruct (F2_nth I _ Ni) as (g & Eg & Gs & _).
    exists g, c. rewrite Q. auto.
  Qed.

  Variables (cs : list (gcmd K)) (is : list nat) (fs : list (fn K)).
  Hypothesis O : orderly cs.
  Hypothesis PK : Forall2 (fun i f => nth_error (means cs) i = Some f) is fs.

  (** the projections of the right hand side *)
  Definition rightHandSide : list vec := map (fun q => mMul (mass (fst (fst q)) (snd q)) (snd (fst q))) (combine fs dual).
  Lemma weak_system : properDuals mass pinv cs -> length dual = length is ->
    (forall k i d, nth_error is k = Some i -> nth_error dual k = Some d -> safeQuery (grun cs) i (Some d)) ->
    exists hb hg w q, bsystem mass pinv false j is (brun mass bcs, grun cs) = ((hb, hg), Ok (w, q)) /\ nodes hb = nodes (brun mass bcs) /\
      brealises pinv w (map s_dofs dual) (map s_dofs dom) m /\ isStack (map s_dofs dual) rightHandSide q /\ stillThere cs hg.
  Proof.
    intros PD LD SQ. destruct weak_now as (hb & w & Q & ND & BR). destruct (@C55_projections K mass pinv HG HM cs is fs dual O PD PK LD SQ) as (q & Eq & ST).
    pose proof (inv_proper HG HM O PD) as I. destruct (@projList_ok K mass pinv HM _ _ is fs dual _ PK LD I SQ) as (vs & hg & Q2 & _ & I2 & _).
    rewrite Q2 in Eq. cbn in Eq. injection Eq as <-. exists hb, hg, w, (stacked vs). split; [|split; [exact ND|split; [exact BR|split; [exact ST|eapply there; exact I2]]]].
    unfold bsystem. rewrite Q, (nodes_spaces hb ND), known_some, Q2. reflexivity.
  Qed.
  (** C147: with the weak form the solutions lie in the domain spaces of the operator, and the block matrix times their coefficients
      is near the vector of projections of the right hand sides when the solver reports success *)
  Theorem C147_blocked_weak rr rc : properDuals mass pinv cs -> length dual = length is ->
    (forall k i d, nth_error is k = Some i -> nth_error dual k = Some d -> safeQuery (grun cs) i (Some d)) ->
    list_sum (map s_dofs dual) = list_sum (map s_dofs dom) ->
    exists w b x gs hb hg, brealises pinv w (map s_dofs dual) (map s_dofs dom) m /\ isStack (map s_dofs dual) rightHandSide b /\
      gmresBlocked mass pinv absn bgmresRun false rr rc j is (brun mass bcs, grun cs) = ((hb, hg), Ok (Answer gs (r_info (bgmresRun w b))
        (if rr then Some (map absn (r_calls (bgmresRun w b))) else None) (if rc then Some (length (r_calls (bgmresRun w b))) else None))) /\
      functionsOf dom x gs /\ (r_info (bgmresRun w b) = 0%Z -> near (mMul m x) b) /\
      nodes hb = nodes (brun mass bcs) /\ stillThere cs hg.
  Proof.
    intros PD LD SQ SD. destruct (weak_system PD LD SQ) as (hb & hg & w & q & BSY & ND & BR & ST & TH). pose proof ST as (S1 & S2 & _).
    destruct (value_dims V) as [D1 D2].
    destruct (@blocked_finish false rr rc is _ hb hg w q _ m BSY ND BR SD D1 D2 S1 S2) as (gs & E & F & Z).
    exists w, q. do 4 eexists. split; [exact BR|]. split; [exact ST|]. split; [exact E|]. split; [exact F|]. split; [exact Z|]. split; assumption.
  Qed.
  (** operators whose domain spaces and dual spaces have different numbers of degrees of freedom are rejected *)
  Theorem C147_blocked_square rr rc : properDuals mass pinv cs -> length dual = length is ->
    (forall k i d, nth_error is k = Some i -> nth_error dual k = Some d -> safeQuery (grun cs) i (Some d)) ->
    list_sum (map s_dofs dual) <> list_sum (map s_dofs dom) ->
    snd (gmresBlocked mass pinv absn bgmresRun false rr rc j is (brun mass bcs, grun cs)) = Throws.
  Proof.
    intros PD LD SQ SD. destruct (weak_system PD LD SQ) as (hb & hg & w & q & BSY & ND & BR & _). eapply blocked_refuses; [exact BSY|exact BR|left; exact SD].
  Qed.

  (** with the strong form: for right hand sides in the range spaces, the block diagonal matrix of inverse mass matrices times the block matrix
      times the coefficients of the solution is near the coefficients of the right hand sides *)
  Variable ran : list space.
  Hypothesis ER : r = map Some ran.
  Hypothesis LR : length ran = length dom.
  Definition rangeMatrix (D : mat K) : Prop := isBlockMatrix (map s_dofs ran) (map s_dofs dual)
    (fun p q => if p =? q then pinv (mass (nth p ran (Sp 0 0 0 0)) (nth p dual (Sp 0 0 0 0))) else zeroMat (s_dofs (nth p ran (Sp 0 0 0 0))) (s_dofs (nth q dual (Sp 0 0 0 0)))) D.
  Lemma strong_system : exists hb hg w q D, bsystem mass pinv true j is (brun mass bcs, grun cs) = ((hb, hg), Ok (w, q)) /\ nodes hb = nodes (brun mass bcs) /\
      rangeMatrix D /\ brealises pinv w (map s_dofs ran) (map s_dofs dom) (mMul D m) /\ isStack (map (fun f => s_dofs (fst f)) fs) (map snd fs) q /\ stillThere cs hg.
  Proof.
    destruct (@coeffList_ok K mass pinv HM HG _ _ is fs _ PK (inv_true HG HM O)) as (q & hg & Q & S & I2).
    pose proof SP as SP'. rewrite ER in SP'.
    destruct (@C92_blocked_strong_partial K mass pinv HG HM bcs j false ran dual _ ex (map s_dofs dom) m SE SP') as (D & w & DM & E & BR); [rewrite map_length; exact LR|exact W|exact V|].
    destruct (bstrong_form mass false j (brun mass bcs)) as [hb r'] eqn:QS. cbn in E. subst r'.
    exists hb, hg, w, q, D. split; [|split; [|split; [exact DM|split; [exact BR|split; [exact S|eapply there; exact I2]]]]].
    - unfold bsystem. rewrite Q, QS. reflexivity.
    - unfold bstrong_form in QS. pose proof (@bstrong_nodes K mass (bweakForm mass (Datatypes.S (length (brun mass bcs)))) false j (brun mass bcs)) as BN. rewrite QS in BN. apply BN. intros. apply bweak_nodes.
  Qed.
  Theorem C147_blocked_strong rr rc : map fst fs = ran -> list_sum (map s_dofs ran) = list_sum (map s_dofs dom) ->
    exists w b x gs hb hg D, rangeMatrix D /\ brealises pinv w (map s_dofs ran) (map s_dofs dom) (mMul D m) /\ isStack (map s_dofs ran) (map snd fs) b /\
      gmresBlocked mass pinv absn bgmresRun true rr rc j is (brun mass bcs, grun cs) = ((hb, hg), Ok (Answer gs (r_info (bgmresRun w b))
        (if rr then Some (map absn (r_calls (bgmresRun w b))) else None) (if rc then Some (length (r_calls (bgmresRun w b))) else None))) /\
      functionsOf dom x gs /\ (r_info (bgmresRun w b) = 0%Z -> near (mMul (mMul D m) x) b) /\
      nodes hb = nodes (brun mass bcs) /\ stillThere cs hg.
  Proof.
    intros FR SD. destruct strong_system as (hb & hg & w & q & D & BSY & ND & DM & BR & ST & TH).
    rewrite <- map_map, FR in ST. pose proof ST as (S1 & S2 & _). destruct (value_dims V) as [_ D2]. pose proof DM as (D1 & _).
    destruct (@blocked_finish true rr rc is _ hb hg w q _ (mMul D m) BSY ND BR SD D1 D2 S1 S2) as (gs & E & F & Z).
    exists w, q. do 5 eexists. split; [exact DM|]. split; [exact BR|]. split; [exact ST|]. split; [exact E|]. split; [exact F|]. split; [exact Z|]. split; assumption.
  Qed.
  (** C148: right hand sides whose degrees of freedom do not add up to those of the range spaces are rejected *)
  Theorem C148_rhs_list_partial rr rc : list_sum (map (fun f => s_dofs (fst f)) fs) <> list_sum (map s_dofs ran) ->
    snd (gmresBlocked mass pinv absn bgmresRun true rr rc j is (brun mass bcs, grun cs)) = Throws.
  Proof.
    intros SD. destruct strong_system as (hb & hg & w & q & D & BSY & ND & DM & BR & ST & TH). pose proof ST as (S1 & _).
    eapply blocked_refuses; [exact BSY|exact BR|right; congruence].
  Qed.
End Thms.

Section Short.
  Variable K : star_ring.
  Variable mass : space -> space -> mat K.
  Variable pinv : mat K -> mat K.
  Hypothesis HG : goodInverse pinv.
  Hypothesis HM : massSized mass.
  Variable N : Type.
  Variable absn : N -> N.
  Variable bgmresRun : bop K -> mat K -> runOf K N.
  Lemma combine_first A B (l : list A) (l' : list B) : combine l l' = combine l (firstn (length l) l').
  Proof. revert l'. induction l as [|a l IH]; intros [|b l']; cbn; [reflexivity..|]. rewrite <- IH. reflexivity. Qed.
  Lemma proj_first is ds h : projectionsOfList mass pinv is ds h = projectionsOfList mass pinv is (firstn (length is) ds) h.
  Proof. unfold projectionsOfList. rewrite combine_first. reflexivity. Qed.
  (** with the weak form, a list that is too short is rejected when the missing rows have degrees of freedom *)
  Theorem C148_short_partial bcs j ex r dual dom m cs is fs rr rc : setEarly mass bcs -> hasSpaces (nodes (brun mass bcs)) j r (map Some dual) (map Some dom) ->
    weakIs mass (nodes (brun mass bcs)) j ex -> hasValue pinv ex (map s_dofs dual) (map s_dofs dom) m ->
    orderly mass pinv cs -> properDuals mass pinv cs -> Forall2 (fun i f => nth_error (means mass pinv cs) i = Some f) is fs ->
    (forall k i d, nth_error is k = Some i -> nth_error dual k = Some d -> safeQuery (grun mass pinv cs) i (Some d)) ->
    length is < length dual -> 0 < list_sum (map s_dofs (skipn (length is) dual)) ->
    snd (gmresBlocked mass pinv absn bgmresRun false rr rc j is (brun mass bcs, grun mass pinv cs)) = Throws.
  Proof.
    intros SE SP W V O PD PK SQ LS PS. destruct (@weak_now K mass pinv HG bcs j ex dual dom m SE W V) as (hb & w & Q & ND & BR).
    assert (LD : length (firstn (length is) dual) = length is) by (rewrite firstn_length; lia).
    assert (SQ' : forall k i d, nth_error is k = Some i -> nth_error (firstn (length is) dual) k = Some d -> safeQuery (grun mass pinv cs) i (Some d)).
    { intros k i d A B. apply (SQ k i d A). rewrite <- (firstn_skipn (length is) dual). rewrite nth_error_app1; [exact B|]. apply nth_error_Some. congruence. }
    destruct (@C55_projections K mass pinv HG HM cs is fs _ O PD PK LD SQ') as (q & Eq & (S1 & _)).
    destruct (projectionsOfList mass pinv is (firstn (length is) dual) (grun mass pinv cs)) as [hg r'] eqn:QP. cbn in Eq. subst r'.
    assert (BSY : bsystem mass pinv false j is (brun mass bcs, grun mass pinv cs) = ((hb, hg), Ok (w, q))).
    { unfold bsystem. rewrite Q, (@nodes_spaces K mass bcs j r dual dom SP hb ND), known_some, proj_first, QP. reflexivity. }
    eapply blocked_refuses; [exact BSY|exact BR|right]. rewrite S1. rewrite <- (firstn_skipn (length is) dual) at 2. rewrite map_app, list_sum_app. lia.
  Qed.
End Short.

(** a solver that tries x = b *)
Definition sameCol (n : nat) (y b : mat Zsr) : bool := forallb (fun i => Z.eqb (m_at y i 0) (m_at b i 0)) (seq 0 n).
Definition btryRun (w : bop Zsr) (b : mat Zsr) : runOf Zsr Z :=
  Run [] (fun i => m_at b i 0) (match bmatvec (@mT Zsr) true w b with Ok y => if sameCol (m_rows b) y b then 0%Z else 1%Z | _ => 1%Z end).
Lemma btry_solves : bsolves (@mT Zsr) (@meq Zsr) btryRun.
Proof.
  intros w R C m b (_ & _ & _ & _ & D & _) SQ M1 M2 B1 B2 I0. unfold btryRun in *. cbn [r_info r_x] in *. destruct (D true b) as (y & Ey & Y1 & Y2 & Y3); [congruence|assumption|]. rewrite Ey in I0.
  destruct (sameCol (m_rows b) y b) eqn:SC; [|discriminate]. unfold sameCol in SC. rewrite forallb_forall in SC.
  assert (MB : meq (column_ (list_sum R) (fun i => m_at b i 0)) b). { split; [cbn; congruence|]. split; [cbn; congruence|]. cbn. intros i k Hi Hk. replace k with 0 by lia. reflexivity. }
  eapply meq_trans; [apply meq_mul; [cbn; congruence|apply meq_refl|exact MB]|]. cbn in Y1, Y2. split; [cbn; congruence|]. split; [reflexivity|].
  intros i k Hi Hk. cbn in Hi, Hk. rewrite <- Y3 by (rewrite ?Y1, ?Y2; lia). replace k with 0 by lia. apply Z.eqb_eq, SC, in_seq. lia.
Qed.
(** C148 fails: with the weak form superfluous right hand sides are ignored, for every operator; with the strong form, a list of
    functions of another length and in other spaces is accepted *)
Theorem C148_rhs_list_refuted :
  (forall K (mass : space -> space -> mat K) (pinv : mat K -> mat K) N (absn : N -> N) bgmresRun bcs j r dual dom is more hg rr rc,
     hasSpaces (nodes (brun mass bcs)) j r (map Some dual) (map Some dom) -> length is = length dual ->
     gmresBlocked mass pinv absn bgmresRun false rr rc j (is ++ more) (brun mass bcs, hg) = gmresBlocked mass pinv absn bgmresRun false rr rc j is (brun mass bcs, hg)) /\
  (exists bcs cs st gs, hasSpaces (nodes (brun massEx bcs)) 0 [Some spA] [Some spA] [Some spA] /\ (exists ex m, weakIs massEx (nodes (brun massEx bcs)) 0 ex /\ hasValue (@mT Zsr) ex [2] [2] m) /\
     map fst (means massEx (@mT Zsr) cs) = [sp1; sp1] /\ bsolves (@mT Zsr) (@meq Zsr) btryRun /\
     gmresBlocked massEx (@mT Zsr) (fun z : Z => z) btryRun true false false 0 [0; 1] (brun massEx bcs, grun massEx (@mT Zsr) cs) = (st, Ok (Answer gs 0%Z None None)) /\ length gs = 1).
Proof.
  split.
  - intros K mass pinv N absn run bcs j r dual dom is more hg rr rc SP L. unfold gmresBlocked. f_equal.
    assert (E : bsystem mass pinv false j (is ++ more) (brun mass bcs, hg) = bsystem mass pinv false j is (brun mass bcs, hg)); [|rewrite E; reflexivity].
    unfold bsystem. destruct (bweak_form mass false j (brun mass bcs)) as [hb w] eqn:Q. destruct w as [w| |]; [|reflexivity..].
    assert (ND : nodes hb = nodes (brun mass bcs)). { pose proof (bweak_nodes mass (S (length (brun mass bcs))) false j (brun mass bcs)) as BN. unfold bweak_form in Q. rewrite Q in BN. exact BN. }
    rewrite (@nodes_spaces K mass bcs j r dual dom SP hb ND), known_some.
    assert (EP : projectionsOfList mass pinv (is ++ more) dual hg = projectionsOfList mass pinv is dual hg).
    { unfold projectionsOfList. replace (combine (is ++ more) dual) with (combine is dual); [reflexivity|]. clear - L. revert dual L. induction is as [|a is IH]; intros [|d dual] L; try discriminate.
      - destruct more; reflexivity.
      - cbn. f_equal. apply IH. cbn in L. lia. }
    rewrite EP. reflexivity.
  - exists [BNew 1 1; BSet 0 0 0 (Blk spA spA spA (EDense (mat2 1 0 0 1)))], [GNew sp1 None (scalarM 3); GNew sp1 None (scalarM 4)]. do 2 eexists.
    split; [eapply SpBlk; vm_compute; reflexivity|]. split; [|split; [reflexivity|split; [apply btry_solves|split; vm_compute; reflexivity]]].
    destruct (@C54_block_matrix_exists Zsr [2] [2] (fun _ _ => mat2 1 0 0 1)) as (m & Hm).
    { intros [|i] [|j] Hi Hj; cbn in *; try lia; auto. }
    do 2 eexists. split; [eapply WBlk; vm_compute; reflexivity|]. apply VBlocks with (M := fun _ _ => mat2 1 0 0 1) (m := m); auto.
    + intros r [<-|[]]; reflexivity.
    + intros [|i] Hi; cbn in Hi; try lia. exists 0. eexists; reflexivity.
    + intros [|i] Hi; cbn in Hi; try lia. exists 0. eexists; reflexivity.
    + intros [|i] [|j] Hi Hj; cbn in *; try lia; auto.
    + intros [|[|i]] [|[|j]] e H; cbn in H; try discriminate; injection H as <-; cbn; auto.
    + discriminate.
Qed.

(** the hypotheses of C147: a 2 x 2 operator with two missing blocks, discretised before, and right hand sides of both kinds *)
Definition idBlk (s : space) : blk Zsr := Blk s s s (EDense (mId Zsr (s_dofs s))).
Definition progBlk : list (bcmd Zsr) := [BNew 2 2; BSet 0 0 0 (idBlk sp1); BSet 0 1 1 (idBlk spA); BStrong false 0].
Definition progB : list (gcmd Zsr) := [GNew sp1 None (scalarM 3); GProjd spA (Some spA) (vec2 4 5)].
Definition blkId (i j : nat) : mat Zsr := if i =? j then mId Zsr (S i) else zeroMat (S i) (S j).
Example C147_example :
  exists ex m st gs, setEarly massEx progBlk /\ hasSpaces (nodes (brun massEx progBlk)) 0 (map Some [sp1; spA]) (map Some [sp1; spA]) (map Some [sp1; spA]) /\
    weakIs massEx (nodes (brun massEx progBlk)) 0 ex /\ hasValue (@mT Zsr) ex (map s_dofs [sp1; spA]) (map s_dofs [sp1; spA]) m /\
    orderly massEx (@mT Zsr) progB /\ bsolves (@mT Zsr) (@meq Zsr) btryRun /\
    gmresBlocked massEx (@mT Zsr) (fun z : Z => z) btryRun false true true 0 [0; 1] (brun massEx progBlk, grun massEx (@mT Zsr) progB) = (st, Ok (Answer gs 0%Z (Some []) (Some 0))) /\
    map (@g_space Zsr) gs = [sp1; spA].
Proof.
  destruct (@C54_block_matrix_exists Zsr [1; 2] [1; 2] blkId) as (m & Hm).
  { intros [|[|i]] [|[|j]] Hi Hj; cbn in *; try lia; auto. }
  do 4 eexists. split.
  { intros cs1 cs2 i r c b E p rc H. exfalso. unfold progBlk in E.
    destruct cs1 as [|a1 [|a2 [|a3 [|a4 cs1]]]]; cbn in E; injection E; intros; subst; try discriminate;
      try (cbn in H; repeat match goal with X : _ \/ _ |- _ => destruct X end; try contradiction; discriminate).
    match goal with X : [] = _ |- _ => destruct cs1; discriminate X end. }
  split; [eapply SpBlk; vm_compute; reflexivity|]. split; [eapply WBlk; vm_compute; reflexivity|]. split.
  { apply VBlocks with (M := blkId) (m := m); auto.
    - intros r [<-|[<-|[]]]; reflexivity.
    - intros [|[|i]] Hi; cbn in Hi; try lia; [exists 0|exists 1]; eexists; reflexivity.
    - intros [|[|j]] Hj; cbn in Hj; try lia; [exists 0|exists 1]; eexists; reflexivity.
    - intros [|[|i]] [|[|j]] Hi Hj; cbn in *; try lia; auto.
    - intros [|[|[|i]]] [|[|[|j]]] e H; cbn in H; try discriminate; injection H as <-; cbn; auto.
    - discriminate. }
  split.
  { intros l c r0 E. unfold progB in E. symmetry in E. split_history l E; try (destruct l; discriminate). all: split; [split; reflexivity|exact Logic.I]. }
  split; [apply btry_solves|]. split; vm_compute; reflexivity.
Qed.

Print Assumptions C147_blocked_weak.
Print Assumptions C147_blocked_square.
Print Assumptions C147_blocked_strong.
Print Assumptions C148_rhs_list_partial.
Print Assumptions C148_short_partial.
Print Assumptions C148_rhs_list_refuted.
