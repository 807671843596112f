(** C56, C57 and C90: operators between function spaces *)
From Coq Require Import List Arith Bool ZArith Lia.
Import ListNotations.
From Verif Require Import Base ArrayModel AsmModel MatAlg PyOpModel PyOpSpec PyOpProofs PyBopModel PyBopSpec PyBopProofs.
Set Implicit Arguments.

(** C57: after any program, the object created for an expression has the spaces of the expression and its weak and
    strong forms are the discretisations the expression stands for.  ([adjointable]: no transpose of a zero operator
    and no adjoint of a zero operator or a complex multiple is involved, see C52 and C53.) *)
Theorem C57_calculus K (mass : space -> space -> mat K) (pinv : mat K -> mat K) : goodInverse pinv -> massSized mass ->
  forall cs i e, nth_error (objects cs) i = Some e -> sized pinv e -> adjointable (weakE mass e) ->
    (exists o, nth_error (run mass cs) i = Some o /\ o_dom o = dom e /\ o_ran o = ran e /\ o_dual o = dual e) /\
    m_rows (weakM mass pinv e) = s_dofs (dual e) /\ m_cols (weakM mass pinv e) = s_dofs (dom e) /\
    m_rows (strongM mass pinv e) = s_dofs (ran e) /\ m_cols (strongM mass pinv e) = s_dofs (dom e) /\
    forall rc,
      (exists w, snd (weak_form mass rc i (run mass cs)) = Ok w /\ realises pinv w (weakM mass pinv e)) /\
      (exists w, snd (strong_form mass rc i (run mass cs)) = Ok w /\ realises pinv w (strongM mass pinv e)).
Proof.
  intros HP HM cs i e N S A. pose proof (run_inv HM cs) as I. destruct (obj_at _ I N) as (o & Ho & (_ & A1 & A2 & A3 & _)).
  destruct (value_weak HM HP e S) as (V & R & C). destruct (strong_value HM HP e V R) as (Vs & Rs).
  assert (L : i < length (run mass cs)) by (apply nth_error_Some; congruence).
  split; [eauto 10|]. split; auto. split; auto. split; auto. split; auto. intros rc.
  assert (W : forall rc h, Inv mass h (objects cs) -> yields mass (weakForm mass (Datatypes.S (length (run mass cs))) rc i) h (objects cs) (build (weakE mass e))).
  { intros rc' h I'. apply weakForm_ok; auto. }
  split.
  - destruct (W rc _ I) as (E & _). unfold weak_form. rewrite E.
    destruct (@build_ok K pinv HP _ A _ V) as (w & B & Wf & D & _). exists w. split; auto. apply wf_realises; auto.
  - destruct (@strong_ok K mass _ (objects cs) i e (fun rc h I' => W rc h I') N rc (run mass cs) I) as (E & _). unfold strong_form. rewrite E.
    assert (A' : adjointable (strongE mass e)) by (unfold adjointable, strongE; cbn; repeat split; exact A).
    destruct (@build_ok K pinv HP _ A' _ Vs) as (w & B & Wf & D & _). exists w. split; auto. apply wf_realises; auto.
Qed.
(** strong forms compose *)
Theorem C57_strong_product K (mass : space -> space -> mat K) (pinv : mat K -> mat K) : goodInverse pinv -> massSized mass ->
  forall a b, sized pinv (OProd a b) -> meq (strongM mass pinv (OProd a b)) (mMul (strongM mass pinv a) (strongM mass pinv b)).
Proof.
  intros HP HM a b S. destruct (value_weak HM HP _ S) as (V & R & C). destruct S as (Sa & Sb & D).
  destruct (value_weak HM HP a Sa) as (Va & Ra & Ca). destruct (value_weak HM HP b Sb) as (Vb & Rb & Cb).
  unfold strongM at 1 2. cbn [weakM]. fold (strongM mass pinv b). change (ran (OProd a b)) with (ran a). change (dual (OProd a b)) with (dual a).
  destruct (HP (mass (ran a) (dual a))) as (P1 & P2 & _). destruct (HM (ran a) (dual a)) as (M1 & M2).
  destruct (strong_value HM HP b Vb Rb) as (_ & Rs).
  apply meq_sym, mMul_assoc; cbn; congruence.
Qed.
(** operators whose spaces have different numbers of degrees of freedom are rejected *)
Theorem C57_rejects K (h : heap K) i j a b : nth_error h i = Some a -> nth_error h j = Some b ->
  (s_dofs (o_dom a) <> s_dofs (o_dom b) \/ s_dofs (o_ran a) <> s_dofs (o_ran b) \/ s_dofs (o_dual a) <> s_dofs (o_dual b) -> newObj h (NSum i j) = Throws) /\
  (s_dofs (o_ran b) <> s_dofs (o_dom a) -> newObj h (NProd i j) = Throws) /\
  (s_dofs (o_dual b) <> s_dofs (o_ran a) -> newObj h (NDual i j) = Throws).
Proof.
  intros A B. cbn. rewrite A, B. unfold compat.
  split; [intros [H|[H|H]]|split; intros H]; apply Nat.eqb_neq in H; rewrite H; cbn; rewrite ?orb_true_r; auto.
Qed.

(** C56: results depend on the expression only, not on earlier calls, failures or recomputations, nor on the
    existence of other operators *)
Theorem C56_history_invisible K (mass : space -> space -> mat K) : massSized mass ->
  forall cs cs' i j e rc rc', nth_error (objects cs) i = Some e -> nth_error (objects cs') j = Some e ->
    snd (weak_form mass rc i (run mass cs)) = snd (weak_form mass rc' j (run mass cs')) /\
    snd (strong_form mass rc i (run mass cs)) = snd (strong_form mass rc' j (run mass cs')).
Proof.
  intros HM cs cs' i j e rc rc' Ni Nj.
  assert (G : forall cs i rc, nth_error (objects cs) i = Some e ->
     snd (weak_form mass rc i (run mass cs)) = build (weakE mass e) /\ snd (strong_form mass rc i (run mass cs)) = build (strongE mass e)).
  { clear - HM. intros cs i rc N. pose proof (run_inv HM cs) as I. destruct (obj_at _ I N) as (o & Ho & _).
    assert (L : i < length (run mass cs)) by (apply nth_error_Some; congruence).
    assert (W : forall rc h, Inv mass h (objects cs) -> yields mass (weakForm mass (Datatypes.S (length (run mass cs))) rc i) h (objects cs) (build (weakE mass e))).
    { intros rc' h I'. apply weakForm_ok; auto. }
    split; [apply (W rc _ I)|]. unfold strong_form. apply (@strong_ok K mass _ (objects cs) i e (fun rc h I' => W rc h I') N rc (run mass cs) I). }
  destruct (G cs i rc Ni) as (-> & ->). destruct (G cs' j rc' Nj) as (-> & ->). auto.
Qed.
(** a second request returns the stored operator without assembling again: the heap stays as it is *)
Theorem C56_cached K (mass : space -> space -> mat K) h i w : snd (weak_form mass false i h) = Ok w ->
  let h1 := fst (weak_form mass false i h) in
  weak_form mass false i h1 = (h1, Ok w).
Proof.
  unfold weak_form. intros E. set (h1 := fst _).
  assert (exists o, nth_error h1 i = Some o /\ o_weak o = Some w) as (o & N & W).
  { subst h1. cbn [weakForm] in *. destruct (nth_error h i) as [o|] eqn:X; [|discriminate]. destruct (o_weak o) as [w'|] eqn:Y.
    - cbn in *. injection E as <-. eauto.
    - unfold andThen in *. destruct (weakImpl mass (weakForm mass (length h)) (o_node o) h) as (h2, r) eqn:Z. destruct r as [w'| |]; cbn in *; try discriminate.
      injection E as <-. rewrite nth_modify, Nat.eqb_refl.
      assert (L : forall f rc k g, length (fst (weakForm mass f rc k g)) = length g /\ length (fst (strongWith mass (weakForm mass f) rc k g)) = length g).
      { clear. induction f as [|f IH]; intros rc k g.
        - split; cbn; auto. unfold strongWith. destruct (nth_error g k); auto. unfold andThen. cbn. apply modify_length.
        - assert (A : forall (x : comp K) y g, (forall g, length (fst (x g)) = length g) -> (forall w g, length (fst (y w g)) = length g) -> length (fst (andThen x y g)) = length g).
          { intros x y g' X Y. unfold andThen. specialize (X g'). destruct (x g') as (g1, [w| |]); cbn in *; auto. rewrite Y. auto. }
          assert (W : forall rc k g, length (fst (weakForm mass (S f) rc k g)) = length g).
          { clear k g rc. intros rc k g. cbn [weakForm]. destruct (nth_error g k) as [o|]; auto. destruct (if rc then None else o_weak o); auto.
            rewrite A.
            - destruct rc; auto. apply modify_length.
            - intros g'. assert (Wk : forall rc k g, length (fst (weakForm mass f rc k g)) = length g) by (intros; apply IH).
              assert (Sk : forall rc k g, length (fst (strongWith mass (weakForm mass f) rc k g)) = length g) by (intros; apply IH).
              destruct (o_node o); cbn [weakImpl]; auto; repeat (apply A; intros; auto).
              destruct (nth_error g0 i); auto. apply A; intros; destruct (speq _ _); auto; apply A; intros; auto.
            - intros w g'. cbn. apply modify_length. }
          split; [apply W|]. unfold strongWith. destruct (nth_error g k); auto. rewrite A; auto. apply modify_length. }
      assert (i < length h2).
      { assert (length h2 = length h) as ->; [|apply nth_error_Some; congruence]. assert (h2 = fst (weakImpl mass (weakForm mass (length h)) (o_node o) h)) as -> by (rewrite Z; auto).
        pose proof (L (Datatypes.S (length h)) false i h) as (Q & _). cbn [weakForm] in Q. rewrite X, Y in Q. unfold andThen in Q. rewrite Z in Q |- *. cbn in Q |- *. rewrite modify_length in Q. exact Q. }
      destruct (nth_error h2 i) as [o2|] eqn:N2; [|apply nth_error_None in N2; lia]. cbn. eexists. split; [reflexivity|]. reflexivity. }
  cbn [weakForm]. rewrite N, W. reflexivity.
Qed.

(** C90: only the numbers of degrees of freedom are compared *)
Theorem C90_compatible_spaces_partial K (h : heap K) i j a b o : nth_error h i = Some a -> nth_error h j = Some b ->
  (newObj h (NSum i j) = Ok o -> s_dofs (o_dom a) = s_dofs (o_dom b) /\ s_dofs (o_ran a) = s_dofs (o_ran b) /\ s_dofs (o_dual a) = s_dofs (o_dual b)) /\
  (newObj h (NProd i j) = Ok o -> s_dofs (o_ran b) = s_dofs (o_dom a)) /\
  (newObj h (NDual i j) = Ok o -> s_dofs (o_dual b) = s_dofs (o_ran a)).
Proof.
  intros A B. cbn. rewrite A, B. unfold compat. split; [|split]; intros H;
    repeat match type of H with context [?x =? ?y] => destruct (Nat.eqb_spec x y); cbn in H; try discriminate end; auto.
Qed.
Definition spAll : space := Sp 0 0 0 3.
Definition spLeft : space := Sp 0 0 1 2.
Definition spRight : space := Sp 0 0 2 2.
Definition dense22 (f : nat -> nat -> Z) : expr Zsr := EDense (@Mat Zsr 2 2 f).
Definition massEx (s t : space) : mat Zsr := @Mat Zsr (s_dofs t) (s_dofs s) (fun i j => if i =? j then 1%Z else 0%Z).
Definition spOther : space := Sp 1 5 0 2.
Theorem C90_compatible_spaces_refuted :
  (** an operator on another grid and with spaces of another kind can be added and multiplied, and the sum and the product have weak
      and strong forms *)
  exists cs a b s p, nth_error (run massEx cs) 0 = Some a /\ nth_error (run massEx cs) 1 = Some b /\
     s_grid (o_dom a) <> s_grid (o_dom b) /\ s_kind (o_dom a) <> s_kind (o_dom b) /\ s_grid (o_ran b) <> s_grid (o_dom a) /\
     nth_error (run massEx cs) 2 = Some s /\ o_node s = NSum 0 1 /\ nth_error (run massEx cs) 3 = Some p /\ o_node p = NProd 0 1 /\
     (exists w, snd (weak_form massEx false 2 (run massEx cs)) = Ok w) /\ (exists w, snd (strong_form massEx false 3 (run massEx cs)) = Ok w).
Proof.
  exists [CNew (NElem spLeft spLeft spLeft (dense22 (fun _ _ => 1%Z))); CNew (NElem spOther spOther spOther (dense22 (fun _ _ => 1%Z))); CNew (NSum 0 1); CNew (NProd 0 1)].
  do 4 eexists. do 2 (split; [reflexivity|]). do 3 (split; [discriminate|]). do 4 (split; [reflexivity|]). split; eexists; reflexivity.
Qed.

(** Non-vacuity: A B + 2 C with a projection, after some calls *)
Definition progEx : list (cmd Zsr) :=
  [CNew (NElem spLeft spLeft spLeft (dense22 (fun i j => Z.of_nat (i + j))));
   CNew (NElem spLeft spLeft spLeft (ENonlocal (@Mat Zsr 2 2 (fun i j => Z.of_nat i))));
   CWeak false 0; CNew (NProd 0 1); CStrong true 1; CNew (@NScaled Zsr 0 2%Z); CNew (NSum 2 3); CWeak false 4;
   CNew (NProj 4 spAll spLeft spRight); CWeak true 2].
Definition exprEx : boe Zsr :=
  OProj (OSum (OProd (OElem spLeft spLeft spLeft (dense22 (fun i j => Z.of_nat (i + j)))) (OElem spLeft spLeft spLeft (ENonlocal (@Mat Zsr 2 2 (fun i j => Z.of_nat i)))))
              (@OScaled Zsr (OElem spLeft spLeft spLeft (dense22 (fun i j => Z.of_nat (i + j)))) 2%Z)) spAll spLeft spRight.
Example C57_case : nth_error (objects progEx) 5 = Some exprEx /\ sized (@mT Zsr) exprEx /\ adjointable (weakE massEx exprEx) /\
  goodInverse (@mT Zsr) /\ massSized massEx.
Proof.
  split; [reflexivity|]. split; [cbn; intuition (eauto; try (eexists; split; [reflexivity|]; auto))|]. split; [cbn; intuition|].
  split; [|split; reflexivity]. intros a. split; [reflexivity|]. split; [reflexivity|]. split; apply meq_refl.
Qed.
Print Assumptions C57_calculus.
Print Assumptions C57_strong_product.
Print Assumptions C57_rejects.
Print Assumptions C56_history_invisible.
Print Assumptions C56_cached.
Print Assumptions C90_compatible_spaces_partial.
Print Assumptions C90_compatible_spaces_refuted.
