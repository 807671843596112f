From Coq Require Import List Arith Bool Lia.
Import ListNotations.
From Verif Require Import Base ArrayModel AsmModel MatAlg PyOpModel PyOpSpec PyOpProofs PyBopModel PyBopSpec.
Set Implicit Arguments.

Lemma speq_eq a b : speq a b = true -> a = b.
Proof.
  unfold speq. rewrite !Bool.andb_true_iff, !Nat.eqb_eq. destruct a, b. cbn. intros (((-> & ->) & ->) & ->). reflexivity.
Qed.

Section Proofs.
  Variable K : star_ring.
  Variable mass : space -> space -> mat K.
  Notation heap := (heap K).

  Lemma modify_length (h : heap) i f : length (modify h i f) = length h.
  Proof. revert i. induction h as [|o h IH]; intros [|i]; cbn; auto. Qed.
  Lemma nth_modify (h : heap) i f k : nth_error (modify h i f) k = if k =? i then option_map f (nth_error h k) else nth_error h k.
  Proof.
    revert i k. induction h as [|o h IH]; intros [|i] [|k]; cbn; auto. all: destruct (_ =? _); auto.
  Qed.

  (** object and expression agree, caches are right *)
  Definition okObj (es : list (boe K)) (i : nat) (o : obj K) (e : boe K) : Prop :=
    resolve (firstn i es) (o_node o) = Some e /\ o_dom o = dom e /\ o_ran o = ran e /\ o_dual o = dual e /\
    (forall w, o_weak o = Some w -> build (weakE mass e) = Ok w) /\
    (forall m, o_map o = Some m -> m = Inverse (mass (ran e) (dual e))).
  Definition Inv (h : heap) (es : list (boe K)) : Prop :=
    length h = length es /\ forall i o e, nth_error h i = Some o -> nth_error es i = Some e -> okObj es i o e.

  Lemma inv_modify h es i f : Inv h es -> (forall o e, nth_error h i = Some o -> nth_error es i = Some e -> okObj es i o e -> okObj es i (f o) e) ->
    Inv (modify h i f) es.
  Proof.
    intros (L & H) F. split; [rewrite modify_length; auto|]. intros k o e Ho He. rewrite nth_modify in Ho. destruct (Nat.eqb_spec k i) as [->|N].
    - destruct (nth_error h i) as [o'|] eqn:E; cbn in Ho; [|discriminate]. injection Ho as <-. apply F; auto.
    - apply H; auto.
  Qed.
  (** a computation gives [r] and keeps the invariant *)
  Definition yields (c : comp K) (h : heap) (es : list (boe K)) (r : res (dop K)) : Prop := snd (c h) = r /\ Inv (fst (c h)) es.
  Lemma yields_ret r h es : Inv h es -> yields (ret r) h es r.
  Proof. intros H. split; auto. Qed.
  Lemma yields_andThen x f h es r g : yields x h es r -> (forall w h', Inv h' es -> r = Ok w -> yields (f w) h' es (g w)) ->
    yields (andThen x f) h es (bind r g).
  Proof.
    intros (E & I) F. unfold yields, andThen. destruct (x h) as (h1, r1) eqn:X. cbn [fst snd] in *. subst r1. destruct r as [w| |]; cbn; auto. apply (F w h1 I eq_refl).
  Qed.
  Lemma yields_eq c h es r r' : yields c h es r -> r = r' -> yields c h es r'. Proof. intros H <-. exact H. Qed.

  Lemma obj_at h es i e : Inv h es -> nth_error es i = Some e -> exists o, nth_error h i = Some o /\ okObj es i o e.
  Proof.
    intros (L & H) E. destruct (nth_error h i) as [o|] eqn:X; eauto. exfalso. apply nth_error_None in X. assert (i < length es) by (apply nth_error_Some; congruence). lia.
  Qed.
  Lemma rangeMap_ok es i o e : okObj es i o e -> rangeMap mass o = Inverse (mass (ran e) (dual e)).
  Proof.
    intros (_ & _ & A & B & _). unfold rangeMap. rewrite A, B. destruct (speq (ran e) (dual e)) eqn:E; auto. apply speq_eq in E. rewrite E. reflexivity.
  Qed.
  Lemma strong_ok weak es i e : (forall rc h, Inv h es -> yields (weak rc i) h es (build (weakE mass e))) -> nth_error es i = Some e ->
    forall rc h, Inv h es -> yields (strongWith mass weak rc i) h es (build (strongE mass e)).
  Proof.
    intros W E rc h I. destruct (obj_at _ I E) as (o & Ho & Ok1). unfold yields, strongWith. rewrite Ho.
    assert (M : match (if rc then None else o_map o) with Some m => m | None => rangeMap mass o end = Inverse (mass (ran e) (dual e))).
    { destruct rc; [eapply rangeMap_ok; eauto|]. destruct (o_map o) as [m|] eqn:X; [|eapply rangeMap_ok; eauto]. apply Ok1 in X. auto. }
    rewrite M.
    assert (I' : Inv (modify h i (setMap (Some (Inverse (mass (ran e) (dual e)))))) es).
    { apply inv_modify; auto. intros o' e' _ He' (A & B & C & D & F & G). assert (e' = e) as -> by congruence.
      split; auto. split; auto. split; auto. split; auto. split; auto. cbn. intros m X. congruence. }
    change (yields (andThen (weak rc i) (fun w => ret (pyMul (Inverse (mass (ran e) (dual e))) w))) (modify h i (setMap (Some (Inverse (mass (ran e) (dual e)))))) es (build (strongE mass e))).
    eapply yields_eq; [eapply yields_andThen with (g := fun w => pyMul (Inverse (mass (ran e) (dual e))) w)|].
    - apply W. exact I'.
    - intros w h' Ih _. apply yields_ret. exact Ih.
    - reflexivity.
  Qed.
  Lemma nth_firstn es i j (e : boe K) : nth_error (firstn i es) j = Some e -> j < i /\ nth_error es j = Some e.
  Proof.
    intros H. assert (j < length (firstn i es)) by (apply nth_error_Some; congruence). rewrite firstn_length in H0. split; [lia|].
    rewrite <- H. clear H. revert i j H0. induction es as [|x es IH]; intros [|i] [|j] H; cbn in *; try lia; auto. apply IH. lia.
  Qed.
  Lemma bind_assoc A B C (x : res A) (f : A -> res B) (g : B -> res C) : bind (bind x f) g = bind x (fun a => bind (f a) g).
  Proof. destruct x; auto. Qed.
  Lemma yields_then c h es r g f : yields c h es r -> (forall w h', Inv h' es -> yields (f w) h' es (g w)) -> yields (andThen c f) h es (bind r g).
  Proof. intros H F. apply yields_andThen; auto. Qed.
  Hypothesis HM : massSized mass.
  Lemma mass_SI a b : pyMul (Sparse (mass a b)) (Inverse (mass a a)) = Ok (Prod (Sparse (mass a b)) (Inverse (mass a a))).
  Proof. cbn. destruct (HM a b) as (_ & ->), (HM a a) as (_ & ->). rewrite Nat.eqb_refl. reflexivity. Qed.
  Lemma mass_IS a b : pyMul (Inverse (mass a a)) (Sparse (mass b a)) = Ok (Prod (Inverse (mass a a)) (Sparse (mass b a))).
  Proof. cbn. destruct (HM a a) as (-> & _), (HM b a) as (-> & _). rewrite Nat.eqb_refl. reflexivity. Qed.
  Lemma weakImpl_ok weak es i : (forall j e, j < i -> nth_error es j = Some e -> forall rc h, Inv h es -> yields (weak rc j) h es (build (weakE mass e))) ->
    forall n e, resolve (firstn i es) n = Some e -> forall h, Inv h es -> yields (weakImpl mass weak n) h es (build (weakE mass e)).
  Proof.
    intros W n e R h I.
    assert (C : forall j e', nth_error (firstn i es) j = Some e' -> forall rc h, Inv h es -> yields (weak rc j) h es (build (weakE mass e'))).
    { intros j e' H. apply nth_firstn in H. destruct H. apply W; auto. }
    assert (S : forall j e', nth_error (firstn i es) j = Some e' -> forall rc h, Inv h es -> yields (strongWith mass weak rc j) h es (build (strongE mass e'))).
    { intros j e' H. apply strong_ok; [intros; apply C; auto|]. apply nth_firstn in H. apply H. }
    destruct n as [d r t e0|d r t|a b|a c|a b|a b|a r|a r|a d r t|a d r t]; cbn [resolve] in R;
      repeat match type of R with
      | context [match nth_error (firstn i es) ?j with _ => _ end] => destruct (nth_error (firstn i es) j) eqn:?; [|discriminate]
      | context [if ?b then _ else _] => destruct b; [|discriminate]
      end; injection R as <-; cbn [weakImpl weakE build].
    - apply yields_ret; auto.
    - apply yields_ret; auto.
    - eapply yields_then; [apply C; eauto|]. intros w h' I'. eapply yields_then; [apply C; eauto|]. intros w' h'' I''. apply yields_ret; auto.
    - eapply yields_then; [apply C; eauto|]. intros w h' I'. apply yields_ret; auto.
    - eapply yields_then; [apply C; eauto|]. intros w h' I'. eapply yields_then; [apply S; eauto|]. intros w' h'' I''. apply yields_ret; auto.
    - rewrite bind_assoc. eapply yields_then; [apply S; eauto|]. intros w h' I'. eapply yields_then; [apply yields_ret; auto|]. intros wh h1 I1.
      eapply yields_then; [apply C; eauto|]. intros w' h'' I''. apply yields_ret; auto.
    - eapply yields_then; [apply C; eauto|]. intros w h' I'. apply yields_ret; auto.
    - eapply yields_then; [apply C; eauto|]. intros w h' I'. apply yields_ret; auto.
    - apply C; auto.
    - match goal with H : nth_error (firstn i es) a = Some ?b |- _ => pose proof (C a b H) as Ca; apply nth_firstn in H; destruct H as (La & Ha); rename b into ea end.
      set (dl := dual ea). set (dm := dom ea).
      eapply yields_eq; [eapply yields_then with (g := fun w =>
          bind (if speq t dl then Ok w else bind (pyMul (Sparse (mass dl t)) (Inverse (mass dl dl))) (fun p => pyMul p w))
               (fun w1 => if speq d dm then Ok w1 else bind (pyMul (Inverse (mass dm dm)) (Sparse (mass d dm))) (fun p => pyMul w1 p)))|].
      + apply Ca. exact I.
      + intros w h' I'. destruct (obj_at _ I' Ha) as (o & Ho & (_ & A1 & _ & A2 & _)). unfold yields. rewrite Ho, A1, A2. fold dl dm.
        match goal with |- snd (?c h') = ?r /\ _ => change (yields c h' es r) end.
        eapply yields_then.
        * destruct (speq t dl); [apply yields_ret; auto|]. eapply yields_then; [apply yields_ret; auto|]. intros p h1 I1. apply yields_ret; auto.
        * intros w1 h1 I1. destruct (speq d dm); [apply yields_ret; auto|]. eapply yields_then; [apply yields_ret; auto|]. intros p h2 I2. apply yields_ret; auto.
      + fold dl dm. destruct (speq t dl), (speq d dm); cbn [build bind]; rewrite ?mass_SI, ?mass_IS; cbn [bind];
          destruct (build (weakE mass ea)); cbn [bind]; auto.
        match goal with |- bind ?x _ = _ => destruct x; auto end.
  Qed.
  Lemma weakForm_ok f : forall es i e, nth_error es i = Some e -> i < f -> forall rc h, Inv h es -> yields (weakForm mass f rc i) h es (build (weakE mass e)).
  Proof.
    induction f as [|f IH]; intros es i e E L rc h I; [lia|]. destruct (obj_at _ I E) as (o & Ho & OK1). unfold yields. cbn [weakForm]. rewrite Ho.
    pose proof OK1 as (R & _ & _ & _ & W & _).
    destruct (if rc then None else o_weak o) as [w|] eqn:X.
    - destruct rc; [discriminate|]. cbn. split; auto. symmetry. apply W. exact X.
    - set (h1 := if rc then modify h i (@clearWeak K) else h).
      assert (I1 : Inv h1 es).
      { unfold h1. destruct rc; auto. apply inv_modify; auto. intros o' e' _ _ (A & B & C & D & F & G). repeat (split; auto). cbn. discriminate. }
      match goal with |- snd (?c h1) = ?r /\ _ => change (yields c h1 es r) end.
      eapply yields_eq; [eapply yields_andThen with (g := @Ok _)|].
      + apply weakImpl_ok with (i := i); [|exact R|exact I1]. intros j e' Hj He'. apply IH; auto. lia.
      + intros w h' I' EW. split; [reflexivity|]. cbn [fst]. apply inv_modify; auto. intros o' e' _ He' (A & B & C & D & F & G).
        assert (e' = e) as -> by congruence. repeat (split; auto). cbn. intros w' Y. congruence.
      + destruct (build (weakE mass e)); auto.
  Qed.
  Lemma resolve_new (h : heap) es n : Inv h es -> match newObj h n with
    | Ok o => exists e, resolve es n = Some e /\ o_node o = n /\ o_dom o = dom e /\ o_ran o = ran e /\ o_dual o = dual e /\ o_weak o = None /\ o_map o = None
    | _ => resolve es n = None end.
  Proof.
    intros I.
    assert (AT : forall i, match nth_error h i with Some o => exists e, nth_error es i = Some e /\ o_dom o = dom e /\ o_ran o = ran e /\ o_dual o = dual e | None => nth_error es i = None end).
    { intros i. destruct I as (L & H). destruct (nth_error h i) as [o|] eqn:X.
      - destruct (nth_error es i) as [e|] eqn:Y; [|exfalso; apply nth_error_None in Y; assert (i < length h) by (apply nth_error_Some; congruence); lia].
        destruct (H i o e X Y) as (_ & A & B & C & _). exists e. auto.
      - apply nth_error_None in X. apply nth_error_None. lia. }
    destruct n as [d r t e0|d r t|a b|a c|a b|a b|a r|a r|a d r t|a d r t]; cbn [newObj resolve];
      try (pose proof (AT a) as Pa; destruct (nth_error h a) as [oa|]; [destruct Pa as (ea & -> & A1 & A2 & A3)|rewrite Pa; auto]);
      try (pose proof (AT b) as Pb; destruct (nth_error h b) as [ob|]; [destruct Pb as (eb & -> & B1 & B2 & B3)|rewrite Pb; auto]).
    all: try (eexists; split; [reflexivity|]; cbn; unfold dom, dual in *; cbn; auto 10; fail).
    - rewrite A1, A2, A3, B1, B2, B3. unfold compat. destruct (s_dofs (dom ea) =? s_dofs (dom eb)), (s_dofs (ran ea) =? s_dofs (ran eb)), (s_dofs (dual ea) =? s_dofs (dual eb)); cbn; auto.
      eexists. split; [reflexivity|]. cbn. unfold dom, dual in *. cbn. auto 10.
    - rewrite A1, B2. unfold compat. destruct (s_dofs (ran eb) =? s_dofs (dom ea)); cbn; auto. eexists. split; [reflexivity|]. cbn. unfold dom, dual in *. cbn. auto 10.
    - rewrite A2, B3. unfold compat. destruct (s_dofs (dual eb) =? s_dofs (ran ea)); cbn; auto. eexists. split; [reflexivity|]. cbn. unfold dom, dual in *. cbn. auto 10.
  Qed.
  Lemma resolve_prefix (es es' : list (boe K)) n e : resolve es n = Some e -> resolve (es ++ es') n = Some e.
  Proof.
    assert (N : forall i x, nth_error es i = Some x -> nth_error (es ++ es') i = Some x).
    { intros i x H. rewrite nth_error_app1; auto. apply nth_error_Some. congruence. }
    destruct n; cbn; auto;
      repeat match goal with
      | |- context [match nth_error es ?j with _ => _ end] => destruct (nth_error es j) as [?|] eqn:?; [|discriminate]; erewrite (N j) by eauto
      end; auto.
  Qed.
  Lemma step_inv (h : heap) es c : Inv h es -> Inv (step mass h c) (specStep es c).
  Proof.
    intros I. destruct c as [n|rc i|rc i]; cbn [step specStep].
    - pose proof (resolve_new n I) as P. destruct (newObj h n) as [o| |]; [|rewrite P; auto..].
      destruct P as (e & R & ON & A & B & C & D & F). rewrite R. destruct I as (L & H). split; [rewrite !app_length; cbn; lia|].
      intros k o' e' Ho He. destruct (lt_dec k (length h)) as [Lk|Lk].
      + rewrite nth_error_app1 in Ho by auto. rewrite nth_error_app1 in He by lia. destruct (H k o' e' Ho He) as (X & Y). split; auto.
        rewrite firstn_app. apply resolve_prefix. auto.
      + assert (k < length (h ++ [o])) by (apply nth_error_Some; congruence). rewrite app_length in H0. cbn in H0. assert (k = length h) as -> by lia.
        rewrite nth_error_app2, Nat.sub_diag in Ho by auto. rewrite nth_error_app2 in He by lia. rewrite L, Nat.sub_diag in He. cbn in Ho, He. injection Ho as <-. injection He as <-.
        split. { rewrite ON, L, firstn_app, firstn_all, Nat.sub_diag. cbn. rewrite app_nil_r. exact R. }
        split; auto. split; auto. split; auto. split; [rewrite D; discriminate|rewrite F; discriminate].
    - unfold weak_form. destruct (nth_error es i) as [e|] eqn:E.
      + destruct (@weakForm_ok (S (length h)) es i e E) with (rc := rc) (h := h) as (_ & X); auto. assert (i < length es) by (apply nth_error_Some; congruence). destruct I. lia.
      + assert (nth_error h i = None) as Hn by (apply nth_error_None in E; apply nth_error_None; destruct I; lia). cbn [weakForm]. rewrite Hn. auto.
    - unfold strong_form. destruct (nth_error es i) as [e|] eqn:E.
      + apply (@strong_ok (weakForm mass (S (length h))) es i e); auto. intros rc' h' I'. apply weakForm_ok; auto. assert (i < length es) by (apply nth_error_Some; congruence). destruct I. lia.
      + assert (nth_error h i = None) as Hn by (apply nth_error_None in E; apply nth_error_None; destruct I; lia). unfold strongWith. rewrite Hn. auto.
  Qed.
  Theorem run_inv cs : Inv (run mass cs) (objects cs).
  Proof.
    unfold run, objects. assert (G : forall h es, Inv h es -> Inv (fold_left (step mass) cs h) (fold_left (@specStep K) cs es)).
    { induction cs as [|c cs IH]; intros h es I; cbn; auto. apply IH, step_inv, I. }
    apply G. split; auto. intros [|i] o e H; discriminate.
  Qed.

  Variable pinv : mat K -> mat K.
  Hypothesis HP : goodInverse pinv.
  Lemma mul_value a b m n : value pinv a = Some m -> value pinv b = Some n -> m_cols m = m_rows n -> value pinv (EMul a b) = Some (mMul m n).
  Proof. intros A B E. cbn. rewrite A, B, E, Nat.eqb_refl. reflexivity. Qed.
  Lemma strong_value e m : value pinv (weakE mass e) = Some m -> m_rows m = s_dofs (dual e) ->
    value pinv (strongE mass e) = Some (mMul (pinv (mass (ran e) (dual e))) m) /\ m_rows (pinv (mass (ran e) (dual e))) = s_dofs (ran e).
  Proof.
    intros V R. destruct (HP (mass (ran e) (dual e))) as (P1 & P2 & _). destruct (HM (ran e) (dual e)) as (M1 & M2).
    split; [|congruence]. apply mul_value; auto. congruence.
  Qed.
  Lemma value_weak e : sized pinv e -> value pinv (weakE mass e) = Some (weakM mass pinv e) /\ m_rows (weakM mass pinv e) = s_dofs (dual e) /\ m_cols (weakM mass pinv e) = s_dofs (dom e).
  Proof.
    induction e as [d r t e|d r t|a IHa b IHb|a IHa c|a IHa b IHb|a IHa b IHb|a IHa r|a IHa r|a IHa d r t|a IHa d r t]; cbn [sized weakE weakM]; intros S.
    - destruct S as (m & V & R & C). rewrite V. auto.
    - split; [reflexivity|]. auto.
    - destruct S as (Sa & Sb & D1 & D2). destruct (IHa Sa) as (Vm & R & C). destruct (IHb Sb) as (Vn & R' & C').
      split; [|auto]. cbn. rewrite Vm, Vn. unfold sameSize. replace (m_rows _ =? m_rows _) with true by (symmetry; apply Nat.eqb_eq; congruence).
      replace (m_cols _ =? m_cols _) with true by (symmetry; apply Nat.eqb_eq; congruence). reflexivity.
    - destruct (IHa S) as (Vm & R & C). split; [cbn; rewrite Vm; auto|auto].
    - destruct S as (Sa & Sb & D). destruct (IHa Sa) as (Vm & R & C). destruct (IHb Sb) as (Vn & R' & C'). destruct (strong_value b Vn R') as (Vs & Rs).
      split; [eapply mul_value; [exact Vm|exact Vs|cbn; congruence]|]. auto.
    - destruct S as (Sa & Sb & D). destruct (IHa Sa) as (Vm & R & C). destruct (IHb Sb) as (Vn & R' & C'). destruct (strong_value a Vm R) as (Vs & Rs).
      split; [eapply mul_value; [change (EMul (EInverse (mass (ran a) (dual a))) (weakE mass a)) with (strongE mass a); cbn [value]; rewrite Vs; reflexivity|exact Vn|cbn; congruence]|].
      cbn. auto.
    - destruct (IHa S) as (Vm & R & C). split; [cbn; rewrite Vm; auto|cbn; auto].
    - destruct (IHa S) as (Vm & R & C). split; [cbn; rewrite Vm; auto|cbn; auto].
    - destruct S as (Sa & D1 & D2). destruct (IHa Sa) as (Vm & R & C). split; auto. cbn. split; congruence.
    - destruct (IHa S) as (Vm & R & C). cbv zeta.
      set (w := if speq t (dual a) then weakM mass pinv a else _).
      assert (W : value pinv (if speq t (dual a) then weakE mass a else EMul (EMul (ESparse (mass (dual a) t)) (EInverse (mass (dual a) (dual a)))) (weakE mass a)) = Some w /\
                m_rows w = s_dofs t /\ m_cols w = s_dofs (dom a)).
      { unfold w. destruct (speq t (dual a)) eqn:E; [apply speq_eq in E; split; auto; split; congruence|].
        destruct (HP (mass (dual a) (dual a))) as (P1 & P2 & _). destruct (HM (dual a) (dual a)) as (M1 & M2). destruct (HM (dual a) t) as (N1 & N2).
        split; [eapply mul_value; [eapply mul_value; [reflexivity|reflexivity|congruence]|exact Vm|cbn; congruence]|]. cbn. auto. }
      clearbody w. destruct W as (Vw & Rw & Cw). destruct (speq d (dom a)) eqn:E.
      + apply speq_eq in E. split; auto. cbn. split; congruence.
      + destruct (HP (mass (dom a) (dom a))) as (P1 & P2 & _). destruct (HM (dom a) (dom a)) as (M1 & M2). destruct (HM d (dom a)) as (N1 & N2).
        split; [eapply mul_value; [exact Vw|eapply mul_value; [reflexivity|reflexivity|congruence]|cbn; congruence]|]. cbn. auto.
  Qed.
End Proofs.
