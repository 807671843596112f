(** C55, C93, C94, C95: grid functions, lists of grid functions, operators applied to grid functions *)
From Coq Require Import List Arith Bool ZArith Lia.
Import ListNotations.
From Verif Require Import Base ArrayModel AsmModel QuadModel MatAlg PyOpModel LocalCacheProofs PyOpSpec PyOpProofs PyBopModel PyBopSpec PyBopProofs PyBopProps PyBlockModel PyBlockSpec PyBlockProofs PyBlockProps PyBbopModel PyBbopSpec PyBbopProps PyGfModel PyGfSpec PyGfProofs PyGfLists.
Set Implicit Arguments.

Section Thms.
  Variable K : star_ring.
  Variable mass : space -> space -> mat K.
  Variable pinv : mat K -> mat K.
  Notation vec := (mat K).
  Hypothesis HG : goodInverse pinv.
  Hypothesis HM : massSized mass.
  Notation grun := (grun mass pinv). Notation means := (means mass pinv). Notation orderly := (orderly mass pinv).
  Notation coefficients := (coefficients mass pinv). Notation projections := (projections mass pinv).

  Lemma inv_true cs : orderly cs -> Forall2 (ginv mass pinv (fun _ _ => True)) (grun cs) (means cs).
  Proof. intros O. apply run_ok; auto. Qed.
  Lemma inv_proper cs : orderly cs -> properDuals mass pinv cs -> Forall2 (ginv mass pinv (properDual mass pinv)) (grun cs) (means cs).
  Proof. intros O PD. apply run_ok; auto. Qed.

  (** C93: in a program that asks functions given by projections for projections onto no other than their dual space, the
      functions are those of the specification: coefficients and projections do not depend on what was read before *)
  Theorem C93_functions_partial cs i s v : orderly cs -> nth_error (means cs) i = Some (s, v) ->
    (exists c, snd (coefficients i (grun cs)) = Ok c /\ meq c v) /\
    (properDuals mass pinv cs -> forall d, safeQuery (grun cs) i d ->
       exists g p, nth_error (grun cs) i = Some g /\ g_space g = s /\ snd (projections i d (grun cs)) = Ok p /\
         meq p (mMul (mass s (match d with Some t => t | None => g_dual g end)) v)).
  Proof.
    intros O N. split.
    - destruct (@coefficients_ok K mass pinv HM HG _ _ _ i s v (inv_true O) N) as (c & h' & Q & M & _). exists c. rewrite Q. auto.
    - intros PD d SQ. pose proof (inv_proper O PD) as I. destruct (@projections_ok K mass pinv HM _ _ _ i d s v I N SQ) as (g & p & h' & Eg & Q & (V & PO) & _).
      exists g, p. destruct (F2_nth I _ N) as (g1 & Eg1 & Gs & Gv & _). rewrite Eg in Eg1. injection Eg1 as <-. rewrite Q. split; [assumption|]. split; [assumption|]. split; [reflexivity|].
      fold (target g d). destruct PO as [PO | [PO PP]]; [assumption|]. apply meq_sym. eapply meq_trans; [|apply PP; exact V].
      apply meq_mul; [|apply meq_refl|apply meq_sym; assumption]. destruct (HM s (target g d)), Gv. cbn in *. congruence.
  Qed.

  (** C55: the vector of a list consists of the coefficients of the functions, and back *)
  Theorem C55_coefficients cs is fs : orderly cs -> Forall2 (fun i f => nth_error (means cs) i = Some f) is fs ->
    exists x, snd (coefficientsOfList mass pinv is (grun cs)) = Ok x /\
      isStack (map (fun f => s_dofs (fst f)) fs) (map snd fs) x /\
      let gs := listFromCoefficients x 0 (map fst fs) in
      length gs = length fs /\
      forall k s v, nth_error fs k = Some (s, v) -> exists g c, nth_error gs k = Some g /\ g_space g = s /\ snd (coefficients k gs) = Ok c /\ meq c v.
  Proof.
    intros O PK. destruct (@coeffList_ok K mass pinv HM HG _ _ is fs _ PK (inv_true O)) as (x & h' & Q & S & _).
    exists x. rewrite Q. split; [reflexivity|]. split; [exact S|]. intros gs. destruct (@fromCoeffs_ok K x (map fst fs) 0 gs eq_refl) as [L F].
    rewrite map_length in L. split; [assumption|]. intros k s v N. assert (nth_error (map fst fs) k = Some s) as N1 by exact (map_nth_error fst _ _ N).
    specialize (F _ _ N1). do 2 eexists. split; [exact F|]. split; [reflexivity|]. unfold PyGfModel.coefficients. rewrite F. cbn [fromCoefficients g_coeffs snd].
    split; [reflexivity|]. destruct S as (_ & _ & _ & S). assert (nth_error (map snd fs) k = Some v) as N2 by exact (map_nth_error snd _ _ N).
    specialize (S _ _ N2). unfold fdims in S. rewrite map_map.
    assert (nth k (map (fun f : fn K => s_dofs (fst f)) fs) 0 = s_dofs s) as E by exact (nth_error_nth _ _ _ (map_nth_error (fun f : fn K => s_dofs (fst f)) _ _ N)).
    pose proof S as S'. change (nth k (map (fun f : fn K => s_dofs (fst f)) fs) 0) with (nth k (map (fun f : space * mat K => s_dofs (fst f)) fs) 0) in E.
    rewrite E in S'. exact S'.
  Qed.
  Theorem C55_round_trip (x : vec) ss : m_rows x = list_sum (map s_dofs ss) -> m_cols x = 1 ->
    let gs := listFromCoefficients x 0 ss in
    exists y, snd (coefficientsOfList mass pinv (seq 0 (length ss)) gs) = Ok y /\ meq y x.
  Proof.
    intros R C gs. destruct (@fromCoeffs_ok K x ss 0 gs eq_refl) as [L F]. set (P := fun _ _ : space => True).
    set (fs := map (fun k => (nth k ss (Sp 0 0 0 0), rowSlice x (off (map s_dofs ss) k) (s_dofs (nth k ss (Sp 0 0 0 0))))) (seq 0 (length ss)) : list (fn K)).
    assert (NF : forall k s, nth_error ss k = Some s -> nth_error fs k = Some (s, rowSlice x (off (map s_dofs ss) k) (s_dofs s))).
    { intros k s N. unfold fs. rewrite nth_error_map. assert (k < length ss) as Lk by (apply nth_error_Some; congruence).
      rewrite nth_error_nth' with (d := 0) by (rewrite seq_length; assumption). rewrite seq_nth by assumption. cbn.
      rewrite (nth_error_nth ss k _ N). reflexivity. }
    assert (LF : length fs = length ss) by (unfold fs; rewrite map_length, seq_length; reflexivity).
    assert (DM : fdims fs = map s_dofs ss).
    { apply nth_ext with 0 0; unfold fdims; rewrite !map_length; [assumption|]. intros k Lk. rewrite LF in Lk.
      destruct (nth_error ss k) as [s|] eqn:N; [|apply nth_error_None in N; lia].
      erewrite !nth_error_nth; [|rewrite nth_error_map, N; reflexivity|rewrite nth_error_map, (NF _ _ N); reflexivity]. reflexivity. }
    assert (VF : forall k s, nth_error ss k = Some s -> vecFor s (rowSlice x (off (map s_dofs ss) k) (s_dofs s))).
    { intros k s N. split; [|assumption]. cbn. assert (k < length (map s_dofs ss)) as Lk by (rewrite map_length; apply nth_error_Some; congruence).
      pose proof (off_bound (map s_dofs ss) Lk) as OB. assert (nth k (map s_dofs ss) 0 = s_dofs s) as E by (apply nth_error_nth; rewrite nth_error_map, N; reflexivity). lia. }
    assert (I : Forall2 (ginv mass pinv P) gs fs).
    { assert (forall (l : list (gf K)) (m : list (fn K)), length l = length m -> (forall k g f, nth_error l k = Some g -> nth_error m k = Some f -> ginv mass pinv P g f) -> Forall2 (ginv mass pinv P) l m) as A.
      { clear. induction l as [|a l IH]; intros [|b m] L H; try discriminate; constructor; [apply (H 0); reflexivity|]. apply IH; [injection L; auto|]. intros k. apply (H (Datatypes.S k)). }
      apply A; [congruence|]. intros k g f N1 N2. assert (k < length ss) as Lk by (rewrite <- L; apply nth_error_Some; congruence).
      destruct (nth_error ss k) as [s|] eqn:N; [|apply nth_error_None in N; lia]. rewrite (F _ _ N) in N1. injection N1 as <-. rewrite (NF _ _ N) in N2. injection N2 as <-.
      apply ginv_coeff; [apply VF; assumption|apply meq_refl]. }
    assert (PK : picks fs (seq 0 (length ss)) fs).
    { rewrite <- LF. unfold picks. clear. assert (forall (m : list (fn K)) (p : list (fn K)), Forall2 (fun i f => nth_error (p ++ m) i = Some f) (seq (length p) (length m)) m) as A.
      { induction m as [|a m IH]; intros p; cbn; constructor.
        - rewrite nth_error_app2, Nat.sub_diag by lia. reflexivity.
        - specialize (IH (p ++ [a])). rewrite app_length in IH. cbn in IH. rewrite Nat.add_1_r, <- app_assoc in IH. exact IH. }
      apply (A fs []). }
    destruct (@coeffList_ok K mass pinv HM HG P fs _ fs gs PK I) as (y & h' & Q & (S1 & S2 & S3 & S4) & _).
    exists y. rewrite Q. split; [reflexivity|]. rewrite DM in S1. split; [congruence|]. split; [congruence|]. intros p q Hp Hq.
    rewrite S1 in Hp. destruct (locate _ Hp) as (k & b & Lk & Lb & ->). pose proof (off_bound _ Lk) as OB. rewrite map_length in Lk.
    destruct (nth_error ss k) as [s|] eqn:N; [|apply nth_error_None in N; lia].
    assert (nth_error (map snd fs) k = Some (rowSlice x (off (map s_dofs ss) k) (s_dofs s))) as N2 by (rewrite nth_error_map, (NF _ _ N); reflexivity).
    destruct (S4 _ _ N2) as (_ & _ & E). rewrite DM in E. specialize (E b q). cbn [rowSlice m_rows m_cols m_at] in E. apply E; [lia|assumption].
  Qed.
  (** the vector of projections *)
  Theorem C55_projections cs is fs ds : orderly cs -> properDuals mass pinv cs -> Forall2 (fun i f => nth_error (means cs) i = Some f) is fs -> length ds = length is ->
    (forall k i d, nth_error is k = Some i -> nth_error ds k = Some d -> safeQuery (grun cs) i (Some d)) ->
    exists x, snd (projectionsOfList mass pinv is ds (grun cs)) = Ok x /\
      isStack (map s_dofs ds) (map (fun q => mMul (mass (fst (fst q)) (snd q)) (snd (fst q))) (combine fs ds)) x.
  Proof.
    intros O PD PK LD SQ. pose proof (inv_proper O PD) as I. destruct (@projList_ok K mass pinv HM _ _ is fs ds _ PK LD I SQ) as (vs & h' & Q & LV & _ & _ & A).
    exists (stacked vs). rewrite Q. split; [reflexivity|]. assert (LI : length is = length fs) by (clear - PK; induction PK; cbn; congruence).
    assert (B : forall k d, nth_error ds k = Some d -> exists f v, nth_error fs k = Some f /\ nth_error vs k = Some v /\ vecFor d v /\ meq v (mMul (mass (fst f) d) (snd f))).
    { intros k d N. assert (k < length ds) as L by (apply nth_error_Some; congruence).
      destruct (nth_error fs k) as [f|] eqn:Nf; [|apply nth_error_None in Nf; lia]. destruct (nth_error vs k) as [v|] eqn:Nv; [|apply nth_error_None in Nv; lia].
      exists f, v. split; [reflexivity|]. split; [reflexivity|]. destruct (A k f d v Nf N Nv) as (V & PO). split; [assumption|]. destruct PO as [PO | [PO PP]]; [assumption|].
      apply meq_sym. eapply meq_trans; [|apply PP; exact V]. apply meq_mul; [|apply meq_refl|apply meq_sym; assumption].
      destruct (F2_nth PK _ Nf) as (i & _ & Ni). destruct (F2_nth I _ Ni) as (g & _ & _ & [Gv _] & _). destruct (HM (fst f) d). congruence. }
    assert (NTH : forall k v, nth_error vs k = Some v -> exists d, nth_error ds k = Some d).
    { intros k v N. destruct (nth_error ds k) eqn:E; [eauto|]. apply nth_error_None in E. assert (k < length vs) by (apply nth_error_Some; congruence). lia. }
    apply isStack_meq with (vs := vs).
    - apply stack_ok.
      + apply nth_ext with 0 0; rewrite !map_length; [assumption|]. intros k Lk. destruct (nth_error vs k) as [v|] eqn:Nv; [|apply nth_error_None in Nv; lia].
        destruct (NTH _ _ Nv) as (d & Nd). destruct (B _ _ Nd) as (f & v' & _ & Nv' & [V _] & _). rewrite Nv in Nv'. injection Nv' as <-.
        erewrite !nth_error_nth; [|rewrite nth_error_map, Nd; reflexivity|rewrite nth_error_map, Nv; reflexivity]. assumption.
      + intros v Iv. apply In_nth_error in Iv as (k & Nv). destruct (NTH _ _ Nv) as (d & Nd). destruct (B _ _ Nd) as (f & v' & _ & Nv' & [_ V] & _). congruence.
    - assert (forall (l m : list vec), length l = length m -> (forall k a b, nth_error l k = Some a -> nth_error m k = Some b -> meq a b) -> Forall2 (@meq K) l m) as G.
      { clear. induction l as [|a l IH]; intros [|b m] L H; try discriminate; constructor; [apply (H 0); reflexivity|]. apply IH; [injection L; auto|]. intros k. apply (H (Datatypes.S k)). }
      apply G; [rewrite map_length, combine_length; lia|]. intros k a b Na Nb. destruct (NTH _ _ Na) as (d & Nd). destruct (B _ _ Nd) as (f & v & Nf & Nv & _ & M).
      rewrite Na in Nv. injection Nv as <-. rewrite nth_error_map in Nb. destruct (nth_error (combine fs ds) k) as [[f' d']|] eqn:NC; [|discriminate].
      apply nth_error_combine in NC as [N1 N2]. cbn in Nb. injection Nb as <-. cbn. congruence.
  Qed.

  (** C94: the product of an operator and a function *)
  Lemma app_orderly cs c : orderly cs -> fits pinv (means cs) c -> safe (grun cs) c -> orderly (cs ++ [c]).
  Proof.
    intros O F S a b d E. destruct (@exists_last _ (b :: d)) as (l & z & EL); [discriminate|]. rewrite EL, app_assoc in E.
    apply app_inj_tail in E as [E ->]. destruct l as [|y l].
    - cbn in EL. injection EL as -> ->. rewrite app_nil_r in E. subst a. auto.
    - cbn in EL. injection EL as -> _. apply (O a y l E).
  Qed.
  Definition times (e : boe K) (i : nat) : gcmd K := GApp (dom e) (ran e) (dual e) (weakE mass e) i.
  Theorem C94_operator_times_function bcs j e rc cs i s v : nth_error (objects bcs) j = Some e -> sized pinv e -> adjointable (weakE mass e) ->
    orderly cs -> nth_error (means cs) i = Some (s, v) -> s_dofs s = s_dofs (dom e) ->
    let k := length (grun cs) in
    exists h g, applyOp mass pinv (dom e) (ran e) (dual e) (snd (weak_form mass rc j (run mass bcs))) i (grun cs) = (h, Ok k) /\
      h = grun (cs ++ [times e i]) /\ orderly (cs ++ [times e i]) /\
      nth_error h k = Some g /\ g_space g = ran e /\ g_dual g = dual e /\
      (exists p, snd (projections k None h) = Ok p /\ meq p (mMul (weakM mass pinv e) v)) /\
      (exists c, snd (coefficients k h) = Ok c /\ meq c (mMul (strongM mass pinv e) v)) /\
      nth_error (means (cs ++ [times e i])) k = Some (ran e, mMul (pinv (mass (ran e) (dual e))) (mMul (weakM mass pinv e) v)) /\
      (forall l f, nth_error (means cs) l = Some f -> nth_error (means (cs ++ [times e i])) l = Some f).
  Proof.
    intros N SZ AD O Ni SD k.
    assert (W : snd (weak_form mass rc j (run mass bcs)) = build (weakE mass e)).
    { pose proof (run_inv HM bcs) as I. destruct (obj_at _ I N) as (o & Ho & _). apply (weakForm_ok (f := Datatypes.S (length (run mass bcs))) HM N); auto.
      apply Nat.lt_lt_succ_r, nth_error_Some. congruence. }
    rewrite W. destruct (value_weak HM HG e SZ) as (V & R & C).
    destruct (@apply_ok K mass pinv HM HG (fun _ _ => True) _ _ i (dom e) (ran e) (dual e) s v _ _ (inv_true O) Ni SD AD V R C Logic.I) as (h & g & p & Q & F & Eg & Hg & M).
    change (nth_error h k = Some g) in Eg.
    assert (GR : grun (cs ++ [times e i]) = h). { unfold PyGfModel.grun. rewrite fold_left_app. cbn [fold_left]. fold (grun cs). cbn [gstep times]. rewrite Q. reflexivity. }
    assert (LEN : length (grun cs) = length (means cs)). { pose proof (inv_true O) as I. clear - I. induction I; cbn; congruence. }
    assert (MN : means (cs ++ [times e i]) = means cs ++ [(ran e, mMul (pinv (mass (ran e) (dual e))) (mMul (weakM mass pinv e) v))]).
    { unfold PyGfSpec.means. rewrite fold_left_app. cbn [fold_left]. fold (means cs). cbn [meansNext times]. rewrite Ni, V. cbn [fst snd]. assert ((s_dofs (dom e) =? s_dofs s) = true) as -> by (apply Nat.eqb_eq; congruence). reflexivity. }
    exists h, g. split; [exact Q|]. split; [symmetry; exact GR|]. split.
    { apply app_orderly; [assumption| |exact Logic.I]. cbn. split; [assumption|]. eexists. split; [exact V|]. split; assumption. }
    split; [exact Eg|]. rewrite Hg. split; [reflexivity|]. split; [reflexivity|]. split; [|split; [|split]].
    - exists p. unfold PyGfModel.projections. rewrite Eg, Hg. cbn [fromProjections g_dual g_proj]. replace (speq (dual e) (dual e)) with true by (unfold speq; rewrite !Nat.eqb_refl; reflexivity).
      split; [reflexivity|assumption].
    - assert (nth_error (means (cs ++ [times e i])) k = Some (ran e, mMul (pinv (mass (ran e) (dual e))) (mMul (weakM mass pinv e) v))) as Nk.
      { rewrite MN. unfold k. rewrite LEN, nth_error_app2, Nat.sub_diag by lia. reflexivity. }
      rewrite <- MN in F. destruct (@coefficients_ok K mass pinv HM HG _ _ _ k _ _ F Nk) as (c & h' & Qc & Mc & _). exists c. rewrite Qc. split; [reflexivity|].
      eapply meq_trans; [exact Mc|]. apply meq_sym. unfold strongM. apply mMul_assoc.
    - rewrite MN. unfold k. rewrite LEN, nth_error_app2, Nat.sub_diag by lia. reflexivity.
    - intros l f Nl. rewrite MN, nth_error_app1; [assumption|]. apply nth_error_Some. congruence.
  Qed.

  (** (A * B) * f and A * (B * f) *)
  Theorem C94_product a b cs i s v : sized pinv (OProd a b) -> adjointable (weakE mass a) -> adjointable (weakE mass b) -> orderly cs -> nth_error (means cs) i = Some (s, v) -> s_dofs s = s_dofs (dom b) ->
    let k := length (grun cs) in
    let h1 := grun (cs ++ [times (OProd a b) i]) in let h2 := grun (cs ++ [times b i; times a k]) in
    exists f g c c' p p', nth_error h1 k = Some f /\ nth_error h2 (Datatypes.S k) = Some g /\ g_space f = g_space g /\ g_dual f = g_dual g /\
      snd (coefficients k h1) = Ok c /\ snd (coefficients (Datatypes.S k) h2) = Ok c' /\ meq c c' /\
      snd (projections k None h1) = Ok p /\ snd (projections (Datatypes.S k) None h2) = Ok p' /\ meq p p'.
  Proof.
    intros SZ Aa Ab O Ni SD k h1 h2. pose proof SZ as (Sa & Sb & D).
    assert (OBJ : forall e, nth_error (objects [CNew (NElem (dom e) (ran e) (dual e) (weakE mass e))]) 0 = Some (OElem (dom e) (ran e) (dual e) (weakE mass e))) by reflexivity.
    assert (SE : forall e, sized pinv e -> sized pinv (OElem (dom e) (ran e) (dual e) (weakE mass e)) /\ weakM mass pinv (OElem (dom e) (ran e) (dual e) (weakE mass e)) = weakM mass pinv e).
    { intros e Se. destruct (value_weak HM HG e Se) as (V & R & C). split; [exists (weakM mass pinv e); auto|]. cbn [weakM]. rewrite V. reflexivity. }
    destruct (SE _ SZ) as [Sp Wp]. destruct (SE _ Sa) as [Sa' Wa]. destruct (SE _ Sb) as [Sb' Wb].
    assert (Ap : adjointable (weakE mass (OProd a b))). { unfold adjointable in *. cbn in *. repeat split; assumption. }
    destruct (@C94_operator_times_function _ 0 _ false cs i s v (OBJ (OProd a b)) Sp Ap O Ni SD) as (g1 & f & Q1 & E1 & _ & F1 & FS & FD & (p & P1 & P2) & (c & C1 & C2) & _).
    destruct (@C94_operator_times_function _ 0 _ false cs i s v (OBJ b) Sb' Ab O Ni SD) as (g2 & g & Q2 & E2 & O2 & G1 & GS & GD & _ & _ & MN & _).
    change (times (OElem (dom b) (ran b) (dual b) (weakE mass b)) i) with (times b i) in *.
    change (times (OElem (dom (OProd a b)) (ran (OProd a b)) (dual (OProd a b)) (weakE mass (OProd a b))) i) with (times (OProd a b) i) in *.
    destruct (@C94_operator_times_function _ 0 _ false _ _ _ _ (OBJ a) Sa' Aa O2 MN D) as (g3 & z & Q3 & E3 & _ & Z1 & ZS & ZD & (p' & P3 & P4) & (c' & C3 & C4) & _).
    assert (LK : length (grun (cs ++ [times b i])) = Datatypes.S k).
    { rewrite <- E2. unfold applyOp, gthen in Q2. clear - Q2. destruct (nth_error (grun cs) i); [|discriminate].
      destruct (negb _); [discriminate|]. destruct (gret _ _) as [h [w| |]] eqn:E; try discriminate. unfold gret in E. injection E as <- E.
      destruct (coefficients i (grun cs)) as [h' [c| |]] eqn:Ec; try discriminate. unfold gret in Q2. destruct (dot pinv w c); try discriminate. unfold alloc in Q2. injection Q2 as <- LE. rewrite app_length, LE. cbn. lia. }
    rewrite LK in *. change (times (OElem (dom a) (ran a) (dual a) (weakE mass a)) k) with (times a k) in *.
    assert (g3 = h2) as -> by (rewrite E3; subst h2; rewrite <- app_assoc; reflexivity). assert (g1 = h1) as -> by (rewrite E1; reflexivity).
    exists f, z, c, c', p, p'. split; [exact F1|]. split; [exact Z1|]. split; [rewrite FS, ZS; reflexivity|]. split; [rewrite FD, ZD; reflexivity|].
    rewrite Wp in P2. rewrite Wa in P4.
    assert (MP : meq p p').
    { eapply meq_trans; [exact P2|]. eapply meq_trans; [|apply meq_sym; exact P4]. cbn [weakM]. fold (strongM mass pinv b).
      eapply meq_trans; [apply mMul_assoc|]. destruct (value_weak HM HG a Sa) as (_ & Ra & Ca). destruct (value_weak HM HG b Sb) as (Vb & Rb & Cb).
      destruct (strong_value HM HG b Vb Rb) as (_ & Rs). apply meq_mul; [cbn in *; congruence|apply meq_refl|]. rewrite Vb. unfold strongM. apply mMul_assoc. }
    split; [exact C1|]. split; [exact C3|]. split; [|split; [exact P1|split; [exact P3|exact MP]]].
    eapply meq_trans; [exact C2|]. eapply meq_trans; [|apply meq_sym; exact C4]. unfold strongM. rewrite Wp, Wa. cbn [ran dual snd ends].
    eapply meq_trans; [apply mMul_assoc|]. eapply meq_trans; [|apply meq_sym, mMul_assoc].
    destruct (value_weak HM HG _ SZ) as (_ & Rp & Cp). destruct (HG (mass (ran a) (dual a))) as (_ & I2 & _). destruct (HM (ran a) (dual a)) as [M1 _].
    apply meq_mul; [cbn [mMul m_rows]; unfold dual in *; cbn in *; congruence|apply meq_refl|].
    eapply meq_trans; [apply meq_sym; exact P2|]. eapply meq_trans; [exact MP|exact P4].
  Qed.

  Lemma rowFunctions_nth (y : vec) : forall R ran dual pos k n r d, nth_error R k = Some n -> nth_error ran k = Some r -> nth_error dual k = Some d ->
    nth_error (rowFunctions y pos R ran dual) k = Some (fromProjections r (Some d) (rowSlice y (pos + off R k) n)).
  Proof.
    induction R as [|n R IH]; intros [|r ran] [|d dual] pos [|k] n' r' d'; try discriminate; cbn [nth_error rowFunctions].
    - intros [= <-] [= <-] [= <-]. unfold off. cbn. rewrite Nat.add_0_r. reflexivity.
    - intros A B C. rewrite (IH _ _ _ _ _ _ _ A B C), off_cons. do 3 f_equal. lia.
  Qed.
  Lemma rowFunctions_length (y : vec) : forall R ran dual pos, length ran = length R -> length dual = length R -> length (rowFunctions y pos R ran dual) = length R.
  Proof. induction R as [|n R IH]; intros [|r ran] [|d dual] pos; cbn; try discriminate; auto. Qed.

  (** blocked operators: each function of the result has the projections  sum_j A_kj f_j *)
  Theorem C94_blocked cs is fs w R C m M ran dual : orderly cs -> Forall2 (fun i f => nth_error (means cs) i = Some f) is fs ->
    brealises pinv w R C m -> isBlockMatrix R C M m ->
    C = map (fun f => s_dofs (fst f)) fs -> C <> [] -> R = map s_dofs dual -> length ran = length dual ->
    exists gs, snd (applyBlocked mass pinv (length C) ran dual (Ok w) is (grun cs)) = Ok gs /\ length gs = length R /\
      forall k r d, nth_error ran k = Some r -> nth_error dual k = Some d -> exists g p, nth_error gs k = Some g /\
        g_space g = r /\ g_dual g = d /\ snd (projections k None gs) = Ok p /\ vecFor d p /\
        forall a, a < s_dofs d -> m_at p a 0 = bsum (seq 0 (length C)) (fun j => m_at (mMul (M k j) (nth j (map snd fs) (zeroMat 0 0))) a 0).
  Proof.
    intros O PK (DR & DC & _ & AP & _) (MR & MC & MB) EC NC ER LR. unfold applyBlocked.
    assert (LI : length is = length C). { rewrite EC, map_length. clear - PK. induction PK; cbn; congruence. }
    rewrite LI, Nat.eqb_refl. cbn [negb]. unfold gthen at 1. cbn [gret]. destruct C as [|c0 C'] eqn:EQC; [congruence|]. rewrite <- EQC in *. clear NC.
    replace (length C =? 0) with false by (rewrite EQC; reflexivity).
    destruct (@each_ok K mass pinv (fun _ _ => True) (coefficients) (means cs) (fun i f h => @coeff_each K mass pinv HM HG _ _ i f h) is fs _ PK (inv_true O)) as (vs & h1 & Q & G & _).
    unfold gthen at 1. rewrite Q. rewrite DC.
    assert (AS : mapRes (fun q => assign (fst q) (snd q)) (combine C vs) = Ok vs).
    { rewrite EC. clear - G. induction G as [|f v fs vs [[V _] (Rv & _)] _ IH]; [reflexivity|]. cbn [map combine mapRes fst snd].
      rewrite assign_ok by congruence. cbn [bind]. cbn in IH. rewrite IH. reflexivity. }
    rewrite AS. unfold gthen at 1. cbn [gret]. pose proof (good_stack G) as S. pose proof S as (S1 & S2 & S3 & S4). unfold fdims in S, S1, S3, S4. rewrite <- EC in S, S1, S3, S4.
    destruct (AP true (stacked vs)) as (y & Ey & My); [assumption|rewrite S2; lia|auto|].
    unfold gthen at 1. cbn [gret]. rewrite Ey. cbn [gret snd]. unfold gret. cbn [snd]. rewrite DR. eexists. split; [reflexivity|].
    assert (LD : length dual = length R) by (rewrite ER, map_length; reflexivity).
    split; [apply rowFunctions_length; congruence|]. intros k r d Nr Nd.
    assert (nth_error R k = Some (s_dofs d)) as NR by (rewrite ER; apply map_nth_error; assumption).
    pose proof (rowFunctions_nth y R ran dual 0 k NR Nr Nd) as RF. do 2 eexists. split; [exact RF|]. split; [reflexivity|]. split; [reflexivity|].
    split. { unfold PyGfModel.projections. rewrite RF. cbn [fromProjections g_dual g_proj]. replace (speq d d) with true by (unfold speq; rewrite !Nat.eqb_refl; reflexivity). reflexivity. }
    assert (Lk : k < length R) by (apply nth_error_Some; congruence). pose proof (off_bound R Lk) as OB. rewrite (nth_error_nth _ _ 0 NR) in OB.
    pose proof My as (Y1 & Y2 & Y3). cbn [mMul m_rows m_cols] in Y1, Y2.
    split. { split; cbn [rowSlice m_rows m_cols]; [rewrite Y1, MR; lia|rewrite Y2; reflexivity]. }
    intros a La. cbn [rowSlice m_at]. rewrite Y3; [|rewrite Y1, MR; lia|rewrite Y2, S2; lia]. cbn [mMul m_at m_cols]. rewrite MC, bsum_blocks.
    apply bsum_ext. intros j Hj. apply in_seq in Hj. assert (Lj : j < length C) by lia.
    destruct (MB k j Lk Lj) as (B1 & B2 & B3). cbn [blockOf m_rows m_cols m_at] in B1, B2, B3. rewrite <- B2.
    apply bsum_ext. intros b Hb. apply in_seq in Hb. f_equal.
    - apply B3; [|lia]. rewrite (nth_error_nth _ _ 0 NR). assumption.
    - destruct (nth_error (map snd fs) j) as [v|] eqn:Nv; [|apply nth_error_None in Nv; lia]. rewrite (nth_error_nth _ _ _ Nv).
      destruct (S4 _ _ Nv) as (_ & _ & E). specialize (E b 0). cbn [rowSlice m_rows m_cols m_at] in E. pose proof (off_bound C Lj) as OC. apply E; [|rewrite S2; lia].
      rewrite S1. lia.
  Qed.

  (** C95: an operator accepts functions in spaces with as many degrees of freedom as its domain space only *)
  Theorem C95_rejects_partial d r t weak i (h : gheap K) g : nth_error h i = Some g -> s_dofs d <> s_dofs (g_space g) ->
    applyOp mass pinv d r t weak i h = (h, Throws).
  Proof.
    intros E N. unfold applyOp. rewrite E. assert (compat d (g_space g) = false) as -> by (now apply Nat.eqb_neq). reflexivity.
  Qed.
End Thms.

(** ---- examples ---- *)
(** two spaces with two degrees of freedom; their mass matrix exchanges the entries *)
Definition spA : space := Sp 0 0 0 2.
Definition spB : space := Sp 0 1 0 2.
Definition mat2 (a b c d : Z) : mat Zsr := @Mat Zsr 2 2 (fun i j => nth (2 * i + j) [a; b; c; d] 0%Z).
Definition massAB (s t : space) : mat Zsr :=
  @Mat Zsr (s_dofs t) (s_dofs s) (fun i j => if s_kind s =? s_kind t then (if i =? j then 1%Z else 0%Z) else if i + j =? 1 then 1%Z else 0%Z).
Definition vec2 (a b : Z) : mat Zsr := @Mat Zsr 2 1 (fun i _ => nth i [a; b] 0%Z).
Lemma good_mT : goodInverse (@mT Zsr).
Proof. intros a. split; [reflexivity|]. split; [reflexivity|]. split; apply meq_refl. Qed.
Lemma massAB_sized : massSized massAB. Proof. intros s t. split; reflexivity. Qed.
Lemma proper22 s d : s_dofs s = 2 -> s_dofs d = 2 -> properDual massAB (@mT Zsr) s d.
Proof.
  intros Es Ed p [V1 V2]. split; [cbn; congruence|]. split; [reflexivity|]. cbn [mMul m_rows m_cols m_at mT massAB]. rewrite Es, Ed. intros i j Hi Hj.
  destruct p as [pr pc pa]. cbn [m_at m_rows m_cols] in *. clear V1 V2 Hj. assert (forall k, exists z : Z, pa k j = z) as EZ by (intros k; exists (pa k j); reflexivity).
  destruct (EZ 0) as (x & Ex). destruct (EZ 1) as (y & Ey).
  destruct (s_kind s =? s_kind d); destruct i as [|[|i]]; try lia; cbn; rewrite ?Ex, ?Ey; match goal with |- @eq _ ?a ?b => change (@eq Z a b) end; destruct x, y; reflexivity.
Qed.
(** a program with functions of both kinds, reads, sums, differences, multiples and an operator *)
Definition swapE : expr Zsr := EDense (mat2 0 1 1 0).
Definition progGf : list (gcmd Zsr) :=
  [GNew spA None (vec2 1 2); GProjd spA (Some spB) (vec2 3 4); GProj 0 (Some spB); GAdd 0 1; GProj 1 None; GSub 1 0; @GScl Zsr 1 5%Z; GCoeff 1; GProj 1 (Some spA); GSet 0 (vec2 7 7); GApp spA spA spA swapE 1].
Ltac split_history l E := destruct l as [|? l]; cbn in E; [first [discriminate | injection E as -> ->] | first [discriminate | injection E as -> E; split_history l E]].
Example C93_example : orderly massAB (@mT Zsr) progGf /\ properDuals massAB (@mT Zsr) progGf /\
  map (fun f => (fst f, (m_at (snd f) 0 0, m_at (snd f) 1 0))) (means massAB (@mT Zsr) progGf) =
    [(spA, (7, 7)); (spA, (4, 3)); (spA, (5, 5)); (spA, (-1, -2)); (spA, (3, 1)); (spA, (20, 15)); (spA, (3, 4))]%Z.
Proof.
  split; [|split; [|vm_compute; reflexivity]].
  - intros l c r E. unfold progGf in E. symmetry in E.
    split_history l E; try (destruct l; discriminate).
    all: try (split; [try exact I; vm_compute; auto|try exact I]).
    all: try (intros s w H; vm_compute in H; injection H as <- _; split; reflexivity).
    all: try (split; [repeat split|eexists; split; [reflexivity|]; split; reflexivity]).
    all: try (intros g t H D ET; vm_compute in H; injection H as <-; cbn in D; discriminate).
    all: try discriminate.
  - intros c s d I G. unfold progGf in I. repeat (destruct I as [<- | I]; [cbn in G; try contradiction; destruct G as [-> ->]; apply proper22; reflexivity|]). destruct I.
Qed.

Definition fitting K mass pinv (cs : list (gcmd K)) : Prop := forall cs1 c cs2, cs = cs1 ++ c :: cs2 -> fits pinv (means mass pinv cs1) c.
Definition progP : list (gcmd Zsr) := [GProjd spA None (vec2 1 2)].
Lemma progP_fits : fitting massAB (@mT Zsr) progP /\ properDuals massAB (@mT Zsr) progP.
Proof.
  split.
  - intros l c r E. unfold progP in E. symmetry in E. split_history l E. split; reflexivity.
  - intros c s d [<- | []] [-> ->]. apply proper22; reflexivity.
Qed.
Theorem C93_functions_refuted :
  (** projections onto another space of a function given by projections are wrong *)
  (exists cs i s v d p, fitting massAB (@mT Zsr) cs /\ properDuals massAB (@mT Zsr) cs /\ properDual massAB (@mT Zsr) s d /\
     nth_error (means massAB (@mT Zsr) cs) i = Some (s, v) /\
     snd (projections massAB (@mT Zsr) i (Some d) (grun massAB (@mT Zsr) cs)) = Ok p /\ ~ meq p (mMul (massAB s d) v)) /\
  (** asking for them changes the function *)
  (exists cs i d c c', fitting massAB (@mT Zsr) cs /\ properDuals massAB (@mT Zsr) cs /\
     snd (coefficients massAB (@mT Zsr) i (grun massAB (@mT Zsr) cs)) = Ok c /\
     snd (coefficients massAB (@mT Zsr) i (grun massAB (@mT Zsr) (cs ++ [GProj i (Some d)]))) = Ok c' /\ ~ meq c c') /\
  (** the dual space of a multiple depends on whether the coefficients were read before *)
  (exists cs i a g g', fitting massAB (@mT Zsr) cs /\ properDuals massAB (@mT Zsr) cs /\
     nth_error (grun massAB (@mT Zsr) (cs ++ [GScl i a])) 1 = Some g /\
     nth_error (grun massAB (@mT Zsr) (cs ++ [GCoeff i; GScl i a])) 1 = Some g' /\ g_dual g <> g_dual g').
Proof.
  destruct progP_fits as [F PD]. split; [|split].
  - exists progP, 0, spA. do 2 eexists. eexists. split; [exact F|]. split; [exact PD|]. split; [apply (@proper22 spA spB); reflexivity|]. split; [reflexivity|].
    split; [vm_compute; reflexivity|]. intros (_ & _ & H). specialize (H 0 0). vm_compute in H. specialize (H ltac:(auto) ltac:(auto)). discriminate.
  - exists progP, 0, spB. do 2 eexists. split; [exact F|]. split; [exact PD|]. split; [vm_compute; reflexivity|]. split; [vm_compute; reflexivity|].
    intros (_ & _ & H). specialize (H 0 0). vm_compute in H. specialize (H ltac:(auto) ltac:(auto)). discriminate.
  - exists [GProjd spA (Some spB) (vec2 1 2)], 0, (2%Z : Zsr). do 2 eexists. split; [|split; [|split; [vm_compute; reflexivity|split; [vm_compute; reflexivity|vm_compute; discriminate]]]].
    + intros l c r E. symmetry in E. split_history l E. split; reflexivity.
    + intros c s d [<- | []] [-> ->]. apply proper22; reflexivity.
Qed.

(** C95: operators and blocked operators accept functions from any space with the right number of degrees of freedom *)
Definition foreign : space := Sp 5 7 0 1.
Theorem C95_rejects_refuted :
  (exists cs s v d k, orderly massEx (@mT Zsr) cs /\ nth_error (means massEx (@mT Zsr) cs) 0 = Some (s, v) /\ s_grid d <> s_grid s /\ s_kind d <> s_kind s /\
     snd (applyOp massEx (@mT Zsr) d d d (build (EDense (scalarM 3))) 0 (grun massEx (@mT Zsr) cs)) = Ok k) /\
  exists bcs ops ran dual dom cs s v w gs,
    nth_error (nodes (brun massEx bcs)) 0 = Some (MBlk ops (map Some ran) (map Some dual) (map Some dom)) /\ dom <> [] /\
    snd (bweak_form massEx false 0 (brun massEx bcs)) = Ok w /\
    orderly massEx (@mT Zsr) cs /\ nth_error (means massEx (@mT Zsr) cs) 0 = Some (s, v) /\
    (forall d, In d dom -> s_grid d <> s_grid s /\ s_kind d <> s_kind s) /\
    snd (applyBlocked massEx (@mT Zsr) (length dom) ran dual (Ok w) [0] (grun massEx (@mT Zsr) cs)) = Ok gs /\ length gs = 1.
Proof.
  split.
  { exists [GNew foreign None (@Mat Zsr 1 1 (fun _ _ => 1%Z))]. do 2 eexists. exists sp1. eexists. split.
    { intros l c r E. symmetry in E. split_history l E. split; [split; reflexivity|exact I]. }
    split; [vm_compute; reflexivity|]. split; [discriminate|]. split; [discriminate|]. vm_compute. reflexivity. }
  exists [BNew 1 1; BSet 0 0 0 (oneByOne 1)]. eexists. exists [sp1], [sp1], [sp1], [GNew foreign None (@Mat Zsr 1 1 (fun _ _ => 1%Z))]. do 4 eexists.
  split; [vm_compute; reflexivity|]. split; [discriminate|].
  split; [vm_compute; reflexivity|]. split.
  { intros l c r E. symmetry in E. split_history l E. split; [split; reflexivity|exact I]. }
  split; [vm_compute; reflexivity|]. split; [intros d [<- | []]; split; discriminate|].
  split; [vm_compute; reflexivity|]. reflexivity.
Qed.

(** the hypotheses of C55 and C94 *)
Example C55_example :
  let fs := means massAB (@mT Zsr) progGf in
  Forall2 (fun i f => nth_error fs i = Some f) [0; 1; 1; 6] [nth 0 fs (spA, vec2 0 0); nth 1 fs (spA, vec2 0 0); nth 1 fs (spA, vec2 0 0); nth 6 fs (spA, vec2 0 0)] /\
  (forall k i d, nth_error [0; 1; 1; 6] k = Some i -> nth_error [spB; spA; spB; spA] k = Some d -> safeQuery (grun massAB (@mT Zsr) progGf) i (Some d)) /\
  exists x, snd (coefficientsOfList massAB (@mT Zsr) [0; 1; 1; 6] (grun massAB (@mT Zsr) progGf)) = Ok x /\
    map (fun i => m_at x i 0) (seq 0 8) = [7; 7; 4; 3; 4; 3; 3; 4]%Z.
Proof.
  split; [repeat constructor|]. split.
  - intros [|[|[|[|k]]]] i d; cbn; try (destruct k; discriminate); intros [= <-] [= <-] g t H D [= <-]; vm_compute in H; injection H as <-; vm_compute in D; try discriminate; reflexivity.
  - eexists. split; vm_compute; reflexivity.
Qed.
Definition opSwap : boe Zsr := OElem spA spA spA swapE.
Example C94_example : sized (@mT Zsr) (OProd opSwap opSwap) /\ adjointable (weakE massAB opSwap) /\
  nth_error (objects [CNew (NElem spA spA spA swapE)]) 0 = Some opSwap /\
  exists s v, nth_error (means massAB (@mT Zsr) progGf) 4 = Some (s, v) /\ s_dofs s = s_dofs (dom opSwap).
Proof.
  assert (sized (@mT Zsr) opSwap) as S by (eexists; split; [reflexivity|split; reflexivity]).
  split; [split; [exact S|split; [exact S|reflexivity]]|]. split; [repeat split|]. split; [reflexivity|].
  do 2 eexists. split; [vm_compute; reflexivity|]. reflexivity.
Qed.
Example C94_blocked_example : exists w m, brealises (@mT Zsr) w [1] [1] m /\ isBlockMatrix [1] [1] (fun _ _ => scalarM 3) m.
Proof.
  destruct (C54_blocked_algebra good_mT (scalar_value 3)) as (w & _ & R). exists w, (scalarM 3). split; [exact R|].
  split; [reflexivity|]. split; [reflexivity|]. intros [|i] [|j] Hi Hj; cbn in Hi, Hj; try lia. split; [reflexivity|]. split; [reflexivity|]. reflexivity.
Qed.

Print Assumptions C93_functions_partial.
Print Assumptions C93_functions_refuted.
Print Assumptions C55_coefficients.
Print Assumptions C55_round_trip.
Print Assumptions C55_projections.
Print Assumptions C94_operator_times_function.
Print Assumptions C94_product.
Print Assumptions C94_blocked.
Print Assumptions C95_rejects_partial.
Print Assumptions C95_rejects_refuted.
