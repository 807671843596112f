From Coq Require Import List Bool Arith Lia.
Import ListNotations.
From Verif Require Import Base ArrayModel AsmModel MatAlg PyOpModel PyOpSpec PyOpProofs PyBopModel PyBopSpec PyBopProofs PyBopProps GalModel GalSpec.
Set Implicit Arguments.
Unset Strict Implicit.

Lemma speq_refl a : speq a a = true.
Proof. unfold speq. rewrite !Nat.eqb_refl. reflexivity. Qed.

Section Forms.
Variable K : star_ring.
Add Ring Kring : (sr_ring K).
Variable F : functions K.
Variable basis : space -> nat -> F.

Lemma form_comb_r (a : F -> F -> K) : bilinear a -> forall n v c u, a u (comb n v c) = bsum (seq 0 n) (fun i => mul (c i) (a u (v i))).
Proof.
  intros B n v c u. unfold comb. induction (seq 0 n) as [|k l IH]; cbn [fold_right].
  - rewrite bsum_nil. apply B.
  - rewrite bsum_cons, (b_add_r B), (b_scale_r B), IH. reflexivity.
Qed.
Lemma form_comb_l (a : F -> F -> K) : bilinear a -> forall n v c u, a (comb n v c) u = bsum (seq 0 n) (fun i => mul (c i) (a (v i) u)).
Proof.
  intros B n v c u. unfold comb. induction (seq 0 n) as [|k l IH]; cbn [fold_right].
  - rewrite bsum_nil. apply B.
  - rewrite bsum_cons, (b_add_l B), (b_scale_l B), IH. reflexivity.
Qed.

(** coefficients of n functions in the basis of w *)
Definition coefficients (w : space) (n : nat) (u : nat -> F) (P : nat -> nat -> K) : Prop :=
  forall j, j < n -> feq (u j) (comb (s_dofs w) (basis w) (fun i => P i j)).
Definition pm (w : space) (n : nat) (P : nat -> nat -> K) : mat K := Mat (s_dofs w) n P.
Definition cross (a : F -> F -> K) (m n : nat) (v u : nat -> F) : mat K := Mat m n (fun i j => a (v i) (u j)).
Lemma cross_r (a : F -> F -> K) w m n v u P : bilinear a -> coefficients w n u P ->
  meq (cross a m n v u) (mMul (cross a m (s_dofs w) v (basis w)) (pm w n P)).
Proof.
  intros B H. split; [|split]; try reflexivity. cbn. intros i j Hi Hj.
  rewrite (b_eq_r B (v i) (H j Hj)), (form_comb_r B). apply bsum_ext. intros k _. ring.
Qed.
Lemma cross_l (a : F -> F -> K) w m n v u P : bilinear a -> coefficients w m v P ->
  meq (cross a m n v u) (mMul (mT (pm w m P)) (cross a (s_dofs w) n (basis w) u)).
Proof.
  intros B H. split; [|split]; try reflexivity. cbn. intros i j Hi Hj.
  rewrite (b_eq_l B (u j) (H i Hi)), (form_comb_l B). apply bsum_ext. intros k _. ring.
Qed.
Lemma galerkin_cross (a : F -> F -> K) d t : galerkin basis a d t = cross a (s_dofs t) (s_dofs d) (basis t) (basis d).
Proof. reflexivity. Qed.

Variable pinv : mat K -> mat K.
Variable ip : F -> F -> K.
Hypothesis Bip : bilinear ip.
Notation mass := (galerkin basis ip).
Hypothesis HP : goodInverse pinv.
Lemma massOk : massSized mass. Proof. split; reflexivity. Qed.

Lemma project_r w n u P : invertible pinv (mass w w) -> coefficients w n u P ->
  meq (mMul (pinv (mass w w)) (cross ip (s_dofs w) n (basis w) u)) (pm w n P).
Proof.
  intros (I & _) H. destruct (HP (mass w w)) as (R & C & _). cbn in R, C.
  eapply meq_trans; [apply meq_mul; [rewrite C; reflexivity|apply meq_refl|apply cross_r; eauto]|].
  eapply meq_trans; [apply meq_sym, mMul_assoc|].
  eapply meq_trans; [apply meq_mul; [|exact I|apply meq_refl]; reflexivity|].
  cbn [m_cols]. apply (mMul_id_l (pm w n P)).
Qed.
Lemma project_l w m v P : invertible pinv (mass w w) -> coefficients w m v P ->
  meq (mMul (cross ip m (s_dofs w) v (basis w)) (pinv (mass w w))) (mT (pm w m P)).
Proof.
  intros (_ & I) H. destruct (HP (mass w w)) as (R & C & _). cbn in R, C.
  eapply meq_trans; [apply meq_mul; [cbn; rewrite R; reflexivity|apply cross_l; eauto|apply meq_refl]|].
  eapply meq_trans; [apply mMul_assoc|].
  eapply meq_trans; [apply meq_mul; [|apply meq_refl|exact I]; cbn; reflexivity|].
  apply (mMul_id_r (mT (pm w m P))).
Qed.
(** change of test and trial functions *)
Lemma change_l (a : F -> F -> K) d t T : bilinear a -> invertible pinv (mass T T) -> subspace basis t T ->
  forall m, meq m (galerkin basis a d T) ->
  meq (mMul (mMul (mass T t) (pinv (mass T T))) m) (galerkin basis a d t).
Proof.
  intros B I (P & H) m E. destruct (HP (mass T T)) as (R & C & _). cbn in R, C. pose proof E as (E1 & E2 & E3). cbn in E1, E2.
  eapply meq_trans; [apply meq_mul; [|apply (project_l I H)|exact E]|].
  - cbn. rewrite C. auto.
  - apply meq_sym. apply (@cross_l a T (s_dofs t) (s_dofs d) (basis t) (basis d) P B H).
Qed.
Lemma change_r (a : F -> F -> K) d t W : bilinear a -> invertible pinv (mass W W) -> subspace basis d W ->
  forall m, meq m (galerkin basis a W t) ->
  meq (mMul m (mMul (pinv (mass W W)) (mass d W))) (galerkin basis a d t).
Proof.
  intros B I (P & H) m E. destruct (HP (mass W W)) as (R & C & _). cbn in R, C. pose proof E as (E1 & E2 & E3). cbn in E1, E2.
  eapply meq_trans; [apply meq_mul; [|exact E|apply (project_r I H)]|].
  - cbn. rewrite R. auto.
  - apply meq_sym. apply (@cross_r a W (s_dofs t) (s_dofs d) (basis t) (basis d) P B H).
Qed.

(** what is known of the expressions the factories build *)
Fixpoint constructible (e : boe K) : Prop :=
  match e with
  | OElem _ _ _ _ | OZero _ _ _ => True
  | OSum a b => constructible a /\ constructible b /\ s_dofs (dom a) = s_dofs (dom b) /\ s_dofs (ran a) = s_dofs (ran b) /\ s_dofs (dual a) = s_dofs (dual b)
  | OProd a b => constructible a /\ constructible b /\ s_dofs (ran b) = s_dofs (dom a)
  | ODual a b => constructible a /\ constructible b /\ s_dofs (dual b) = s_dofs (ran a)
  | OScaled a _ | OTrans a _ | OAdj a _ | OReint a _ _ _ | OProj a _ _ _ => constructible a
  end.
Lemma objects_app (cs cs' : list (cmd K)) : exists l, objects (cs ++ cs') = objects cs ++ l.
Proof.
  unfold objects. rewrite fold_left_app. generalize (fold_left (@specStep K) cs []) as es.
  induction cs' as [|c cs' IH]; intros es; cbn [fold_left]; [exists []; now rewrite app_nil_r|].
  destruct (IH (specStep es c)) as (l & ->). destruct c as [n| |]; cbn; eauto. destruct (resolve es n) as [e|]; eauto. exists (e :: l). now rewrite <- app_assoc.
Qed.
Lemma objects_snoc (cs : list (cmd K)) n e : resolve (objects cs) n = Some e -> nth_error (objects (cs ++ [CNew n])) (length (objects cs)) = Some e.
Proof.
  intros R. unfold objects at 1. rewrite fold_left_app. cbn. fold (objects cs). rewrite R. rewrite nth_error_app2 by lia. rewrite Nat.sub_diag. reflexivity.
Qed.
Lemma create e : constructible e -> forall cs0, exists cs1 i, nth_error (objects (cs0 ++ cs1)) i = Some e.
Proof.
  assert (One : forall (cs0 : list (cmd K)) n e, (exists cs1, resolve (objects (cs0 ++ cs1)) n = Some e) -> exists cs1 i, nth_error (objects (cs0 ++ cs1)) i = Some e).
  { intros cs0 n e' (cs1 & R). exists (cs1 ++ [CNew n]). eexists. rewrite app_assoc. apply objects_snoc. exact R. }
  assert (Un : forall (a : boe K) n e', (forall cs0 : list (cmd K), exists cs1 i, nth_error (objects (cs0 ++ cs1)) i = Some a) ->
     (forall es i, nth_error es i = Some a -> resolve es (n i) = Some e') -> forall cs0 : list (cmd K), exists cs1 i, nth_error (objects (cs0 ++ cs1)) i = Some e').
  { intros a n e' A R cs0. destruct (A cs0) as (cs1 & i & N). apply (One cs0 (n i)). exists cs1. auto. }
  assert (Bin : forall (a b : boe K) n e', (forall cs0 : list (cmd K), exists cs1 i, nth_error (objects (cs0 ++ cs1)) i = Some a) ->
     (forall cs0 : list (cmd K), exists cs1 i, nth_error (objects (cs0 ++ cs1)) i = Some b) ->
     (forall es i j, nth_error es i = Some a -> nth_error es j = Some b -> resolve es (n i j) = Some e') -> forall cs0 : list (cmd K), exists cs1 i, nth_error (objects (cs0 ++ cs1)) i = Some e').
  { intros a b n e' A B R cs0. destruct (A cs0) as (cs1 & i & N). destruct (B (cs0 ++ cs1)) as (cs2 & j & M).
    apply (One cs0 (n i j)). exists (cs1 ++ cs2). rewrite app_assoc. apply R; auto.
    destruct (objects_app (cs0 ++ cs1) cs2) as (l & ->). rewrite nth_error_app1; auto. apply nth_error_Some. congruence. }
  induction e as [d r t x|d r t|a IHa b IHb|a IHa c|a IHa b IHb|a IHa b IHb|a IHa r|a IHa r|a IHa d r t|a IHa d r t]; cbn [constructible]; intros C.
  - intros cs0. apply (One cs0 (NElem d r t x)). exists []. reflexivity.
  - intros cs0. apply (One cs0 (NZero d r t)). exists []. reflexivity.
  - destruct C as (Ca & Cb & E1 & E2 & E3). apply (Bin a b (fun i j => NSum i j)); auto. intros es i j Hi Hj. cbn. rewrite Hi, Hj, E1, E2, E3, !Nat.eqb_refl. reflexivity.
  - apply (Un a (fun i => NScaled i c)); auto. intros es i Hi. cbn. rewrite Hi. reflexivity.
  - destruct C as (Ca & Cb & E). apply (Bin a b (fun i j => NProd i j)); auto. intros es i j Hi Hj. cbn. rewrite Hi, Hj, E, Nat.eqb_refl. reflexivity.
  - destruct C as (Ca & Cb & E). apply (Bin a b (fun i j => NDual i j)); auto. intros es i j Hi Hj. cbn. rewrite Hi, Hj, E, Nat.eqb_refl. reflexivity.
  - apply (Un a (fun i => NTrans i r)); auto. intros es i Hi. cbn. rewrite Hi. reflexivity.
  - apply (Un a (fun i => NAdj i r)); auto. intros es i Hi. cbn. rewrite Hi. reflexivity.
  - apply (Un a (fun i => NReint i d r t)); auto. intros es i Hi. cbn. rewrite Hi. reflexivity.
  - apply (Un a (fun i => NProj i d r t)); auto. intros es i Hi. cbn. rewrite Hi. reflexivity.
Qed.
Lemma realises_meq o (m m' : mat K) : meq m m' -> realises pinv o m -> realises pinv o m'.
Proof.
  intros E (S & D & V & A). pose proof E as (E1 & E2 & E3). repeat split.
  - rewrite <- E1, <- E2. exact S.
  - intros x R C. rewrite <- E2 in R. destruct (D x R C) as (y & Y & M). exists y. split; auto.
    eapply meq_trans; [exact M|]. apply meq_mul; auto. apply meq_refl.
  - intros x R C. rewrite <- E2 in R. destruct (V x R C) as (y & Y & M). exists y. split; auto.
    eapply meq_trans; [exact M|]. apply meq_mul; auto. apply meq_refl.
  - intros C. rewrite <- E2 in C. destruct (A C) as (a & Y & M). exists a. split; auto. eapply meq_trans; eauto.
Qed.

Record good (e : boe K) (d r t : space) (m : mat K) : Prop := Good {
  g_dom : dom e = d; g_ran : ran e = r; g_dual : dual e = t;
  g_sized : sized pinv e; g_adj : adjointable (weakE mass e); g_con : constructible e; g_mat : meq (weakM mass pinv e) m }.
Theorem good_discretises e d r t m : good e d r t m -> discretises mass pinv e d r t m.
Proof.
  intros [D R T S A C M] cs0. destruct (create C cs0) as (cs1 & i & N). exists cs1, i. split; auto.
  destruct (@C57_calculus K mass pinv HP massOk _ i e N S A) as ((o & O & O1 & O2 & O3) & _ & _ & _ & _ & W). split.
  - exists o. repeat split; congruence.
  - intros rc. destruct (W rc) as ((w & E & Re) & _). exists w. split; auto. eapply realises_meq; eauto.
Qed.
Lemma good_meq e d r t m m' : meq m m' -> good e d r t m -> good e d r t m'.
Proof. intros E [D R T S A C M]. split; auto. eapply meq_trans; eauto. Qed.
Lemma good_size e d r t m : good e d r t m -> m_rows (weakM mass pinv e) = s_dofs t /\ m_cols (weakM mass pinv e) = s_dofs d.
Proof. intros [D R T S A C M]. destruct (value_weak massOk HP e S) as (_ & R1 & C1). rewrite <- D, <- T. auto. Qed.

Lemma leaf_adjointable (e : expr K) : leaf e -> adjointable e.
Proof. destruct e; cbn; try tauto; repeat split; auto. Qed.
Lemma leaf_noZero (e : expr K) : leaf e -> noZero e.
Proof. destruct e; cbn; try tauto; repeat split; auto. Qed.
Lemma leaf_real (e : expr K) : leaf e -> realScalars e.
Proof. destruct e; cbn; try tauto; repeat split; auto. Qed.

Lemma good_elem d r t e (m : mat K) : assembles pinv e m -> m_rows m = s_dofs t -> m_cols m = s_dofs d -> good (OElem d r t e) d r t m /\ noZero (weakE mass (OElem d r t e)).
Proof.
  intros (L & m' & V & E) R C. pose proof E as (E1 & E2 & E3). split; [|cbn; now apply leaf_noZero]. split; auto.
  - exists m'. split; auto. split; congruence.
  - now apply leaf_adjointable.
  - exact Logic.I.
  - cbn [weakM]. rewrite V. exact E.
Qed.
Lemma good_reint e d r t m d' r' t' : good e d r t m -> s_dofs d' = s_dofs d -> s_dofs t' = s_dofs t -> good (OReint e d' r' t') d' r' t' m.
Proof.
  intros [D R T S A C M] E1 E2. split; auto; cbn. repeat split; auto; congruence.
Qed.
Lemma good_proj e W r T a d r' t : bilinear a -> good e W r T (galerkin basis a W T) ->
  (d = W \/ invertible pinv (mass W W) /\ subspace basis d W) -> (t = T \/ invertible pinv (mass T T) /\ subspace basis t T) ->
  good (OProj e d r' t) d r' t (galerkin basis a d t).
Proof.
  intros B G HD HT. pose proof (good_size G) as (Rw & Cw). destruct G as [D R T0 S A C M]. split; auto.
  - cbn [weakE]. rewrite D, T0.
    assert (X : adjointable (if speq t T then weakE mass e else EMul (EMul (ESparse (mass T t)) (EInverse (mass T T))) (weakE mass e))).
    { destruct (speq t T); auto. cbn. repeat split; exact A. }
    destruct (speq d W); auto. split; auto. split; [exact X|]. cbn. repeat split.
  - cbn [weakM]. rewrite D, T0.
    assert (X : meq (if speq t T then weakM mass pinv e else mMul (mMul (mass T t) (pinv (mass T T))) (weakM mass pinv e)) (galerkin basis a W t)).
    { destruct (speq t T) eqn:E.
      - apply speq_eq in E. subst t. exact M.
      - destruct HT as [->|(I & Sb)]; [rewrite speq_refl in E; discriminate|]. apply change_l; auto. }
    destruct (speq d W) eqn:E.
    + apply speq_eq in E. subst d. exact X.
    + destruct HD as [->|(I & Sb)]; [rewrite speq_refl in E; discriminate|]. apply change_r; auto.
Qed.
Lemma proj_noZero e d r t : noZero (weakE mass e) -> noZero (weakE mass (OProj e d r t)).
Proof.
  intros N. cbn [weakE].
  assert (X : noZero (if speq t (dual e) then weakE mass e else EMul (EMul (ESparse (mass (dual e) t)) (EInverse (mass (dual e) (dual e)))) (weakE mass e))).
  { destruct (speq t (dual e)); auto. cbn. repeat split; exact N. }
  destruct (speq d (dom e)); auto. split; auto. split; [exact X|]. cbn. repeat split.
Qed.
Lemma good_project e W r T a d r' t : bilinear a -> good e W r T (galerkin basis a W T) -> finer basis pinv ip d W -> finer basis pinv ip t T ->
  good (projectOperator e d r' t) d r' t (galerkin basis a d t).
Proof.
  intros B G HD HT. unfold projectOperator. pose proof G as [D R T0 S A C M].
  destruct (speq (dom e) d && speq (dual e) t) eqn:E; [|apply (good_proj r' B G HD HT)].
  apply andb_prop in E as (E1 & E2). apply speq_eq in E1, E2. assert (d = W) by congruence. assert (t = T) by congruence. clear E1 E2 HD HT. subst d t.
  destruct (speq (ran e) r') eqn:E3.
  - apply speq_eq in E3. rewrite <- E3, R. exact G.
  - eapply good_reint; [exact G| |]; reflexivity.
Qed.
Lemma project_noZero e d r t : noZero (weakE mass e) -> noZero (weakE mass (projectOperator e d r t)).
Proof.
  intros N. unfold projectOperator. destruct (_ && _); [|apply proj_noZero; auto]. destruct (speq _ _); auto.
Qed.
End Forms.
Section Factory.
Variable K : star_ring.
Add Ring Kring2 : (sr_ring K).
Variable F : functions K.
Variable basis : space -> nat -> F.
Variable pinv : mat K -> mat K.
Variable ip : F -> F -> K.
Hypothesis Bip : bilinear ip.
Notation mass := (galerkin basis ip).
Hypothesis HP : goodInverse pinv.
Variable at_ : attributes.
Notation good := (good basis pinv ip).
Notation faithful := (faithful basis at_ pinv ip).
Notation assemblesForm := (assemblesForm basis pinv).

Lemma sameBasis_galerkin (a : F -> F -> K) d t d' t' : bilinear a -> sameBasis basis d d' -> sameBasis basis t t' -> meq (galerkin basis a d' t') (galerkin basis a d t).
Proof.
  intros B (D1 & D2) (T1 & T2). split; [|split]; cbn; auto. intros i j Hi Hj. rewrite <- T1 in Hi. rewrite <- D1 in Hj.
  rewrite (b_eq_l B _ (T2 i Hi)), (b_eq_r B _ (D2 j Hj)). reflexivity.
Qed.
Lemma getOperator_plain fuel dense up op a d r t : bilinear a -> assemblesForm op a -> finer basis pinv ip d (superSpace at_ d) -> finer basis pinv ip t (superSpace at_ t) ->
  checkNonBarycentric at_ d t = false ->
  exists e, getOperator at_ (S fuel) dense up op d r t = Some e /\ good e d r t (galerkin basis a d t) /\ noZero (weakE mass e).
Proof.
  intros B A Hd Ht C. cbn [getOperator]. rewrite C. destruct (negb (if dense then false else up)).
  - eexists. split; [reflexivity|]. apply good_elem; auto.
  - eexists. split; [reflexivity|].
    destruct (@good_elem K F basis pinv ip (superSpace at_ d) r (superSpace at_ t) (op (superSpace at_ d) (superSpace at_ t)) _ (A _ _) eq_refl eq_refl) as (G & N).
    split; [apply (good_project Bip HP r B G Hd Ht)|apply project_noZero; auto].
Qed.
Theorem getOperator_good dense up op a d r t : bilinear a -> assemblesForm op a -> faithful d -> faithful t ->
  exists e, getOperator at_ 2 dense up op d r t = Some e /\ good e d r t (galerkin basis a d t) /\ noZero (weakE mass e).
Proof.
  intros B A (Hd & Nd) (Ht & Nt). destruct (checkNonBarycentric at_ d t) eqn:C.
  - unfold checkNonBarycentric in C. destruct (isBarycentric at_ d) eqn:Bd; [|discriminate]. destruct (isBarycentric at_ t) eqn:Bt; [|discriminate]. cbn in C.
    apply andb_prop in C as (Hnd & Hnt). destruct (Nd eq_refl Hnd) as (S1 & X1 & F1). destruct (Nt eq_refl Hnt) as (S2 & X2 & F2).
    assert (C' : checkNonBarycentric at_ (nonBarycentric at_ d) (nonBarycentric at_ t) = false) by (unfold checkNonBarycentric; rewrite X1; reflexivity).
    assert (C : checkNonBarycentric at_ d t = true) by (unfold checkNonBarycentric; rewrite Bd, Bt, Hnd, Hnt; reflexivity).
    destruct (@getOperator_plain 0 dense (if dense then false else up) op a _ r _ B A F1 F2 C') as (e & E & G & N).
    eexists. split; [|split].
    + change (getOperator at_ 2 dense up op d r t) with (if checkNonBarycentric at_ d t then
      option_map (fun o => OReint o d r t) (getOperator at_ 1 dense (if dense then false else up) op (nonBarycentric at_ d) r (nonBarycentric at_ t))
    else if negb (if dense then false else up) then Some (OElem d r t (op d t))
    else Some (projectOperator (OElem (superSpace at_ d) r (superSpace at_ t) (op (superSpace at_ d) (superSpace at_ t))) d r t)).
      rewrite C, E. reflexivity.
    + apply good_meq with (2 := good_reint r G (proj1 S1) (proj1 S2)). apply sameBasis_galerkin; auto.
    + exact N.
  - apply getOperator_plain; auto.
Qed.

(** sums, products, transposes *)
Lemma good_sum e1 e2 d r t m1 m2 : good e1 d r t m1 -> good e2 d r t m2 -> good (OSum e1 e2) d r t (mAdd m1 m2).
Proof.
  intros G1 G2. pose proof (good_size HP G1) as (R1 & C1). pose proof (good_size HP G2) as (R2 & C2).
  destruct G1 as [D R T S A C M]. destruct G2 as [D' R' T' S' A' C' M']. split; auto.
  - cbn. repeat split; auto; congruence.
  - split; auto.
  - cbn. repeat split; auto; congruence.
  - cbn [weakM]. apply meq_add; auto; congruence.
Qed.
Lemma good_scale e d r t m c : good e d r t m -> good (OScaled e c) d r t (mScale c m).
Proof. intros [D R T S A C M]. split; auto; [split; auto|cbn [weakM]; apply meq_scale; auto]. Qed.
Lemma good_trans e d r t m r' : good e d r t m -> noZero (weakE mass e) -> good (OTrans e r') t r' d (mT m).
Proof.
  intros [D R T S A C M] N. split; auto.
  - split; auto.
  - cbn [weakM]. apply meq_T; auto.
Qed.
(** an operator with a single-component curl: P^T A P *)
Lemma good_sandwich w r (a : F -> F -> K) slp d x e P :
  bilinear a -> good slp w r w (galerkin basis a w w) -> invertible pinv (mass w w) ->
  assembles pinv e (cross ip (s_dofs w) (s_dofs d) (basis w) x) -> (forall i j, conj (P i j) = P i j) -> coefficients basis w (s_dofs d) x P ->
  let g := OElem d w w e in
  good (ODual g slp) w r d (mMul (mT (pm w (s_dofs d) P)) (galerkin basis a w w)) /\
  good (OProd (ODual g slp) g) d r d (cross a (s_dofs d) (s_dofs d) x x) /\
  forall c, good (OProd (OScaled (ODual g slp) c) g) d r d (mScale c (cross a (s_dofs d) (s_dofs d) x x)).
Proof.
  intros B G I (L & m & V & E) Re Co g.
  pose proof (good_size HP G) as (Rw & Cw). pose proof G as [D R T S A C M]. pose proof E as (E1 & E2 & E3). cbn in E1, E2.
  destruct (HP (mass w w)) as (R1 & C1 & _). cbn in R1, C1.
  assert (St : meq (mMul (pinv (mass w w)) (weakM mass pinv g)) (pm w (s_dofs d) P)).
  { cbn [weakM g]. rewrite V. eapply meq_trans; [apply meq_mul; [rewrite C1, E1; reflexivity|apply meq_refl|exact E]|]. apply (project_r Bip HP I Co). }
  assert (SH : meq (mH (mMul (pinv (mass w w)) (weakM mass pinv g))) (mT (pm w (s_dofs d) P))).
  { eapply meq_trans; [apply meq_H, St|]. split; [|split]; try reflexivity. intros i j Hi Hj. cbn. apply Re. }
  assert (Sg : sized pinv g) by (cbn; exists m; repeat split; auto).
  assert (GD : good (ODual g slp) w r d (mMul (mT (pm w (s_dofs d) P)) (galerkin basis a w w))).
  { split; auto.
    - cbn [sized]. repeat split; auto. rewrite T. reflexivity.
    - cbn [weakE g ran dual ends snd]. split; auto. split; [|exact A].
      cbn. pose proof (leaf_adjointable L). pose proof (leaf_noZero L). pose proof (leaf_real L). repeat split; auto.
    - cbn. repeat split; auto. rewrite T. reflexivity.
    - cbn [weakM]. change (ran g) with w. change (dual g) with w. apply meq_mul; auto.
      cbn. rewrite R1. rewrite Rw. reflexivity. }
  assert (PR : forall e' m', good e' w r d m' -> good (OProd e' g) d r d (mMul m' (pm w (s_dofs d) P))).
  { intros e' m' G'. pose proof (good_size HP G') as (R' & C'). destruct G' as [D' Ra' T' S' A' Co' M']. split; auto.
    - cbn [sized]. rewrite D'. repeat split; auto.
    - cbn [weakE g ran dual ends snd]. split; auto. split; auto. cbn. pose proof (leaf_adjointable L). repeat split; auto.
    - cbn [constructible]. rewrite D'. repeat split; auto.
    - cbn [weakM]. change (ran g) with w. change (dual g) with w. apply meq_mul; auto. rewrite C'. cbn. symmetry. exact R1. }
  split; [exact GD|].
  assert (X : meq (mMul (mMul (mT (pm w (s_dofs d) P)) (galerkin basis a w w)) (pm w (s_dofs d) P)) (cross a (s_dofs d) (s_dofs d) x x)).
  { apply meq_sym. eapply meq_trans; [apply (@cross_r _ _ basis a w _ _ x x P B Co)|]. apply meq_mul; [reflexivity| |apply meq_refl].
    apply (@cross_l _ _ basis a w _ _ x (basis w) P B Co). }
  split.
  - eapply good_meq; [exact X|]. apply PR. exact GD.
  - intros c. eapply good_meq; [|apply PR, good_scale, GD]. eapply meq_trans; [apply mMul_scale_l|]. apply meq_scale, X.
Qed.
Lemma made_constructible (cs : list (cmd K)) : Forall (@constructible K) (objects cs).
Proof.
  unfold objects. generalize (Forall_nil (@constructible K)). generalize (@nil (boe K)) as es. induction cs as [|c cs IH]; intros es H; cbn [fold_left]; auto.
  apply IH. destruct c as [n| |]; cbn [specStep]; auto. destruct (resolve es n) as [e|] eqn:R; auto. apply Forall_app. split; auto. constructor; auto.
  assert (At : forall i a, nth_error es i = Some a -> constructible a) by (intros i a N; eapply Forall_forall in H; [exact H|eapply nth_error_In; eauto]).
  destruct n; cbn in R; repeat match type of R with context [match nth_error es ?i with _ => _ end] => destruct (nth_error es i) eqn:?; try discriminate end;
    repeat match type of R with context [?x =? ?y] => destruct (Nat.eqb_spec x y); cbn in R; try discriminate end;
    injection R as <-; cbn; eauto 10.
Qed.
Lemma good_zero d r t : good (OZero d r t) d r t (zeroMat (s_dofs t) (s_dofs d)).
Proof. split; auto; cbn; repeat split; auto. Qed.
Lemma hypFromSlp_good w (a : F -> F -> K) slp (curl normal : nat -> assembler K) (curlOf normalTimes : nat -> F -> F) wave2 d r :
  bilinear a -> singleLayerOn basis mass pinv a slp w -> invertible pinv (mass w w) ->
  (forall c, c < 3 -> assemblesForm (curl c) (fun v u => ip v (curlOf c u))) ->
  (wave2 <> None -> forall c, c < 3 -> assemblesForm (normal c) (fun v u => ip v (normalTimes c u))) ->
  componentsIn basis w d curlOf normalTimes wave2 ->
  good (hypersingularFromSlp curl normal wave2 slp d r d) d r d (galerkin basis (curlCurl a curlOf normalTimes wave2) d d).
Proof.
  intros B [(cs & k & Nk) SD ST SS SA SM] I Ac An Co.
  assert (G : good slp w (ran slp) w (galerkin basis a w w)).
  { split; auto. pose proof (made_constructible cs) as H. eapply Forall_forall in H; [exact H|eapply nth_error_In; eauto]. }
  unfold hypersingularFromSlp. rewrite SD.
  set (step := fun acc c => _).
  assert (Step : forall acc c m, c < 3 -> good acc d (ran slp) d m -> exists m', good (step acc c) d (ran slp) d m' /\
     m_rows m' = m_rows m /\ m_cols m' = m_cols m /\ forall i j, m_at m' i j = add (m_at m i j) (match wave2 with None => a (curlOf c (basis d i)) (curlOf c (basis d j))
      | Some k2 => add (a (curlOf c (basis d i)) (curlOf c (basis d j))) (mul k2 (a (normalTimes c (basis d i)) (normalTimes c (basis d j)))) end)).
  { intros acc c m Hc Ga. destruct (Co c Hc) as ((P & PR & PC) & Cn).
    destruct (@good_sandwich w (ran slp) a slp d (fun j => curlOf c (basis d j)) (curl c d w) P B G I (Ac c Hc d w) PR PC) as (_ & G1 & _).
    unfold step. destruct wave2 as [k2|].
    - destruct (Cn ltac:(discriminate)) as (Q & QR & QC).
      destruct (@good_sandwich w (ran slp) a slp d (fun j => normalTimes c (basis d j)) (normal c d w) Q B G I (An ltac:(discriminate) c Hc d w) QR QC) as (_ & _ & G2).
      eexists. split; [apply (good_sum (good_sum Ga G1) (G2 k2))|]. cbn. split; auto. split; auto. intros. ring.
    - eexists. split; [apply (good_sum Ga G1)|]. cbn. auto. }
  destruct (Step _ 0 _ ltac:(lia) (good_zero d (ran slp) d)) as (m0 & G0 & R0 & C0 & E0).
  destruct (Step _ 1 _ ltac:(lia) G0) as (m1 & G1 & R1 & C1 & E1).
  destruct (Step _ 2 _ ltac:(lia) G1) as (m2 & G2 & R2 & C2 & E2).
  apply good_meq with (m := m2).
  - split; [|split]; cbn in *; try congruence. intros i j _ _. rewrite E2, E1, E0. unfold curlCurl. destruct wave2; ring.
  - eapply good_reint; [exact G2| |]; reflexivity.
Qed.
End Factory.
