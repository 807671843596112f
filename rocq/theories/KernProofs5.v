(** Differential equations, gradients and divergence of the potentials. *)
From Coq Require Import Reals List Lra Lia FunctionalExtensionality.
Import ListNotations.
From Verif Require Import Base ComplexR VecModel VecSpec KernModel KernSpec KernProofs KernProofs2 KernProofs3 KernProofs4.
Set Implicit Arguments.
Unset Strict Implicit.
Local Open Scope R_scope.

Definition eig (c : cpx) (y : vec) (f : vec -> cpx) : Prop := laplacianOn (fun z => z <> y) f (fun z => c_mul c (f z)).
Lemma eig_add c y f g : eig c y f -> eig c y g -> eig c y (fun z => c_add (f z) (g z)).
Proof.
  intros A B. unfold eig. replace (fun z => c_mul c (c_add (f z) (g z))) with (fun z => c_add (c_mul c (f z)) (c_mul c (g z))); [now apply lap_add|].
  apply functional_extensionality. intros z. csolve.
Qed.
Lemma eig_mul c y a f : eig c y f -> eig c y (fun z => c_mul a (f z)).
Proof.
  intros A. unfold eig. replace (fun z => c_mul c (c_mul a (f z))) with (fun z => c_mul a (c_mul c (f z))); [now apply lap_scale|].
  apply functional_extensionality. intros z. csolve.
Qed.
Lemma eig_ext c y f g : (forall z, z <> y -> f z = g z) -> eig c y f -> eig c y g.
Proof. intros E. apply lap_ext; [apply open_ne|exact E|]. intros z N. now rewrite E. Qed.
Lemma eig_G k y : eig (c_mul k k) y (fun z => gG k (dist z y)).
Proof. apply lap_G. Qed.
Lemma eig_A k y n : eig (c_mul k k) y (fun z => c_mul (cre (dot (vsub z y) n)) (gA k (dist z y))).
Proof. apply lap_A. Qed.
Lemma eig_Ai k y i : (i < 3)%nat -> eig (c_mul k k) y (fun z => c_mul (cre (comp (vsub z y) i)) (gA k (dist z y))).
Proof. intros I. apply (eig_ext (f := fun z => c_mul (cre (dot (vsub z y) (unit3 i))) (gA k (dist z y)))); [|apply eig_A]. intros z _. now rewrite dot_unit. Qed.

Lemma kvals_eval K x q : k_test K = GLOBALS -> kvals K x q = match evalKernel K x vzero (q_point q) (q_normal q) with Some l => l | None => [] end.
Proof. intros H. unfold kvals, evalKernel. now rewrite H. Qed.

Ltac reg := split; [intros x y n; cbn; discriminate|intros kv tv; reflexivity].
Lemma reg_lsl : regular laplaceSingleLayer. Proof. reg. Qed.
Lemma reg_ldl : regular laplaceDoubleLayer. Proof. reg. Qed.
Lemma reg_lslg : regular laplaceSingleLayerGradient. Proof. reg. Qed.
Lemma reg_ldlg : regular laplaceDoubleLayerGradient. Proof. reg. Qed.
Lemma reg_msl k : regular (modifiedHelmholtzSingleLayer k). Proof. reg. Qed.
Lemma reg_mdl k : regular (modifiedHelmholtzDoubleLayer k). Proof. reg. Qed.
Lemma reg_fsl k : regular (helmholtzFarSingleLayer k). Proof. reg. Qed.
Lemma reg_fdl k : regular (helmholtzFarDoubleLayer k). Proof. reg. Qed.
Lemma reg_e k : regular (electricField k). Proof. reg. Qed.
Lemma reg_m k : regular (magneticField k). Proof. reg. Qed.
Lemma reg_ef k : regular (electricFar k). Proof. reg. Qed.
Lemma reg_mf k : regular (magneticFar k). Proof. reg. Qed.

(** the terms of the sums *)
Ltac tm0 V := unfold term; rewrite kvals_eval by reflexivity; unfold modifiedHelmholtzSingleLayer, modifiedHelmholtzDoubleLayer, electricField, magneticField; cbn [p_kernel p_integrand]; rewrite V by assumption.
Ltac tm V := tm0 V; cbn -[c_mul c_add c_opp cre gG gA gB dist dot comp].
Lemma term_lsl x q : x <> q_point q -> term laplaceSingleLayer 0 x q = c_mul (c_mul (at2 (q_values q) 0 0) (gG c0 (dist x (q_point q)))) (cre (q_weight q)).
Proof. intros N. tm laplaceSlp_val. reflexivity. Qed.
Lemma term_msl k x q : x <> q_point q -> term (modifiedHelmholtzSingleLayer k) 0 x q = c_mul (c_mul (at2 (q_values q) 0 0) (gG k (dist x (q_point q)))) (cre (q_weight q)).
Proof. intros N. tm modSlp_val. reflexivity. Qed.
Lemma term_ldl x q : x <> q_point q -> term laplaceDoubleLayer 0 x q =
  c_mul (c_mul (at2 (q_values q) 0 0) (c_mul (cre (- dot (vsub x (q_point q)) (q_normal q))) (gA c0 (dist x (q_point q))))) (cre (q_weight q)).
Proof. intros N. tm laplaceDlp_val. reflexivity. Qed.
Lemma term_mdl k x q : x <> q_point q -> term (modifiedHelmholtzDoubleLayer k) 0 x q =
  c_mul (c_mul (at2 (q_values q) 0 0) (c_mul (cre (- dot (vsub x (q_point q)) (q_normal q))) (gA k (dist x (q_point q))))) (cre (q_weight q)).
Proof. intros N. tm modDlp_val. reflexivity. Qed.
Ltac i3 i I := destruct i as [|[|[|i]]]; [| | |exfalso; cbn in I; lia].
Lemma term_lslg i x q : (i < 3)%nat -> x <> q_point q -> term laplaceSingleLayerGradient i x q =
  c_mul (c_mul (at2 (q_values q) 0 0) (c_mul (cre (comp (vsub x (q_point q)) i)) (gA c0 (dist x (q_point q))))) (cre (q_weight q)).
Proof. intros I N. i3 i I; tm laplaceSlpGrad_val; reflexivity. Qed.
Lemma term_ldlg i x q : (i < 3)%nat -> x <> q_point q -> term laplaceDoubleLayerGradient i x q =
  c_mul (c_mul (at2 (q_values q) 0 0) (c_opp (c_add (c_mul (cre (comp (q_normal q) i)) (gA c0 (dist x (q_point q))))
     (c_mul (cre (dot (vsub x (q_point q)) (q_normal q) * comp (vsub x (q_point q)) i)) (gB c0 (dist x (q_point q))))))) (cre (q_weight q)).
Proof. intros I N. i3 i I; tm laplaceDlpGrad_val; reflexivity. Qed.
Lemma mwn_ne k : k <> c0 -> modifiedWaveNumber k <> c0.
Proof.
  intros H E. apply H. destruct k as [a b]. unfold modifiedWaveNumber, cdiv, cinv, cabs2, cI, c_mul, c0 in *. cbn in E. injection E as A B. f_equal; lra.
Qed.
Lemma term_e k i x q : (i < 3)%nat -> k <> c0 -> x <> q_point q -> term (electricField k) i x q =
  c_mul (c_add (c_mul (c_opp (c_mul (modifiedWaveNumber k) (gG (modifiedWaveNumber k) (dist x (q_point q))))) (at2 (q_values q) 0 i))
               (c_mul (cdiv (c_mul (cre (comp (vsub x (q_point q)) i)) (gA (modifiedWaveNumber k) (dist x (q_point q)))) (modifiedWaveNumber k)) (at2 (q_values q) 1 0))) (cre (q_weight q)).
Proof. intros I K N. apply mwn_ne in K. i3 i I; tm0 maxwellSlpo_val; reflexivity. Qed.
Definition gradG k x y i : cpx := c_mul (cre (comp (vsub x y) i)) (gA k (dist x y)).
Definition next (i : nat) : nat := match i with O => 1 | S O => 2 | _ => 0 end.
Lemma term_m k i x q : (i < 3)%nat -> x <> q_point q -> term (magneticField k) i x q =
  c_mul (c_add (c_mul (gradG (modifiedWaveNumber k) x (q_point q) (next i)) (at2 (q_values q) 0 (next (next i))))
               (c_opp (c_mul (gradG (modifiedWaveNumber k) x (q_point q) (next (next i))) (at2 (q_values q) 0 (next i))))) (cre (q_weight q)).
Proof. intros I N. i3 i I; tm0 maxwellDl_val; reflexivity. Qed.

(** ---- the equations ---- *)
Lemma c_mul_comm' a b : c_mul a b = c_mul b a. Proof. csolve. Qed.
Ltac comm1 := apply (eig_ext (f := fun z => _)).
Lemma eig_wrap c y v w f : eig c y f -> eig c y (fun z => c_mul (c_mul v (f z)) (cre w)).
Proof.
  intros E. apply (eig_ext (f := fun z => c_mul (c_mul v (cre w)) (f z))); [intros z _; csolve|]. now apply eig_mul.
Qed.
Lemma potential_lap op c i qs : regular op -> (i < p_dim op)%nat -> (forall q, eig c (q_point q) (fun z => term op i z q)) ->
  laplacianOn (offPoints qs) (component op qs i) (fun z => c_mul c (component op qs i z)).
Proof.
  intros R I H.
  eapply (@lap_ext _ (fun z => csumq (fun q => term op i z q) qs) _ (fun z => c_mul c (csumq (fun q => term op i z q) qs))); [apply open_off| | |].
  - intros z _. now rewrite component_sum.
  - intros z _. now rewrite component_sum.
  - apply lap_csumq. intros q _. apply H.
Qed.
Lemma lap_msl k qs : laplacianOn (offPoints qs) (component (modifiedHelmholtzSingleLayer k) qs 0) (fun z => c_mul (c_mul k k) (component (modifiedHelmholtzSingleLayer k) qs 0 z)).
Proof.
  apply potential_lap; [apply reg_msl|cbn; lia|]. intros q. eapply eig_ext; [intros z N; symmetry; now apply term_msl|]. apply eig_wrap, eig_G.
Qed.
Lemma eig_negA k y n : eig (c_mul k k) y (fun z => c_mul (cre (- dot (vsub z y) n)) (gA k (dist z y))).
Proof. apply (eig_ext (f := fun z => c_mul (cre (-1)) (c_mul (cre (dot (vsub z y) n)) (gA k (dist z y))))); [intros z _; csolve|]. apply eig_mul, eig_A. Qed.
Lemma lap_mdl k qs : laplacianOn (offPoints qs) (component (modifiedHelmholtzDoubleLayer k) qs 0) (fun z => c_mul (c_mul k k) (component (modifiedHelmholtzDoubleLayer k) qs 0 z)).
Proof.
  apply potential_lap; [apply reg_mdl|cbn; lia|]. intros q. eapply eig_ext; [intros z N; symmetry; now apply term_mdl|]. apply eig_wrap, eig_negA.
Qed.
Lemma c0c0 : c_mul c0 c0 = c0. Proof. unfold c0. csolve. Qed.
Lemma lap_lsl qs : laplacianOn (offPoints qs) (component laplaceSingleLayer qs 0) (fun z => c_mul c0 (component laplaceSingleLayer qs 0 z)).
Proof.
  apply potential_lap; [apply reg_lsl|cbn; lia|]. intros q. eapply eig_ext; [intros z N; symmetry; now apply term_lsl|]. apply eig_wrap. pose proof (eig_G c0 (q_point q)) as E. now rewrite c0c0 in E.
Qed.
Lemma lap_ldl qs : laplacianOn (offPoints qs) (component laplaceDoubleLayer qs 0) (fun z => c_mul c0 (component laplaceDoubleLayer qs 0 z)).
Proof.
  apply potential_lap; [apply reg_ldl|cbn; lia|]. intros q. eapply eig_ext; [intros z N; symmetry; now apply term_ldl|]. apply eig_wrap.
  pose proof (eig_negA c0 (q_point q) (q_normal q)) as E. now rewrite c0c0 in E.
Qed.
Lemma lap_lslg i qs : (i < 3)%nat -> laplacianOn (offPoints qs) (component laplaceSingleLayerGradient qs i) (fun z => c_mul c0 (component laplaceSingleLayerGradient qs i z)).
Proof.
  intros I. apply potential_lap; [apply reg_lslg|exact I|]. intros q. eapply eig_ext; [intros z N; symmetry; now apply term_lslg|]. apply eig_wrap.
  pose proof (eig_Ai c0 (q_point q) I) as E. now rewrite c0c0 in E.
Qed.
Lemma lap_e k i qs : (i < 3)%nat -> k <> c0 -> laplacianOn (offPoints qs) (component (electricField k) qs i)
  (fun z => c_mul (c_mul (modifiedWaveNumber k) (modifiedWaveNumber k)) (component (electricField k) qs i z)).
Proof.
  intros I K. apply potential_lap; [apply reg_e|exact I|]. intros q. eapply eig_ext; [intros z N; symmetry; now apply term_e|].
  set (k' := modifiedWaveNumber k). set (y := q_point q).
  apply (eig_ext (f := fun z => c_add (c_mul (c_mul (c_mul (c_opp k') (at2 (q_values q) 0 i)) (cre (q_weight q))) (gG k' (dist z y)))
     (c_mul (c_mul (c_mul (cinv k') (at2 (q_values q) 1 0)) (cre (q_weight q))) (c_mul (cre (comp (vsub z y) i)) (gA k' (dist z y)))))).
  { intros z _. unfold cdiv. csolve. }
  apply eig_add; apply eig_mul; [apply eig_G|now apply eig_Ai].
Qed.
Lemma next3 i : (i < 3)%nat -> (next i < 3)%nat. Proof. destruct i as [|[|[|i]]]; cbn; lia. Qed.
Lemma lap_m k i qs : (i < 3)%nat -> laplacianOn (offPoints qs) (component (magneticField k) qs i)
  (fun z => c_mul (c_mul (modifiedWaveNumber k) (modifiedWaveNumber k)) (component (magneticField k) qs i z)).
Proof.
  intros I. apply potential_lap; [apply reg_m|exact I|]. intros q. eapply eig_ext; [intros z N; symmetry; now apply term_m|].
  set (k' := modifiedWaveNumber k). set (y := q_point q).
  apply (eig_ext (f := fun z => c_add (c_mul (c_mul (at2 (q_values q) 0 (next (next i))) (cre (q_weight q))) (c_mul (cre (comp (vsub z y) (next i))) (gA k' (dist z y))))
     (c_mul (c_opp (c_mul (at2 (q_values q) 0 (next i)) (cre (q_weight q)))) (c_mul (cre (comp (vsub z y) (next (next i)))) (gA k' (dist z y)))))).
  { intros z _. unfold gradG. csolve. }
  apply eig_add; apply eig_mul; apply eig_Ai; now repeat apply next3.
Qed.

(** ---- gradients ---- *)
Lemma deriv_wrap v w f x d l : deriv f x d l -> deriv (fun z => c_mul (c_mul v (f z)) (cre w)) x d (c_mul (c_mul v l) (cre w)).
Proof.
  intros D. eapply deriv_eq; [apply deriv_mul; [apply deriv_mul; [apply deriv_const|exact D]|apply deriv_const]|]. csolve.
Qed.
Lemma deriv_component op i x d qs (l : qpoint -> cpx) : regular op -> (i < p_dim op)%nat -> offPoints qs x -> (forall q, In q qs -> deriv (fun z => term op i z q) x d (l q)) ->
  deriv (component op qs i) x d (csumq l qs).
Proof.
  intros R I O H. apply (deriv_ext (f := fun z => csumq (fun q => term op i z q) qs)); [intros z; now rewrite component_sum|]. now apply deriv_csumq.
Qed.
Lemma deriv_near_eq f g y x d l : x <> y -> (forall z, z <> y -> f z = g z) -> deriv f x d l -> deriv g x d l.
Proof. intros N E. apply (deriv_on (U := fun z => z <> y)); [apply open_ne|exact N|exact E]. Qed.
Lemma grad_lsl i x qs : (i < 3)%nat -> offPoints qs x -> deriv (component laplaceSingleLayer qs 0) x (unit3 i) (component laplaceSingleLayerGradient qs i x).
Proof.
  intros I O. rewrite component_sum by (first [apply reg_lslg|exact I]). apply deriv_component; [apply reg_lsl|cbn; lia|exact O|]. intros q H. specialize (O q H).
  eapply deriv_near_eq; [exact O|intros z N; symmetry; now apply term_lsl|]. rewrite term_lslg by assumption. apply deriv_wrap.
  eapply deriv_eq; [now apply deriv_G|]. now rewrite dot_unit.
Qed.
Lemma grad_ldl i x qs : (i < 3)%nat -> offPoints qs x -> deriv (component laplaceDoubleLayer qs 0) x (unit3 i) (component laplaceDoubleLayerGradient qs i x).
Proof.
  intros I O. rewrite component_sum by (first [apply reg_ldlg|exact I]). apply deriv_component; [apply reg_ldl|cbn; lia|exact O|]. intros q H. specialize (O q H).
  eapply deriv_near_eq; [exact O|intros z N; symmetry; now apply term_ldl|]. rewrite term_ldlg by assumption. apply deriv_wrap.
  apply (deriv_ext (f := fun z => c_opp (c_mul (cre (dot (vsub z (q_point q)) (q_normal q))) (gA c0 (dist z (q_point q)))))); [intros z; csolve|].
  eapply deriv_eq; [apply deriv_opp, deriv_mul; [apply deriv_dot|now apply deriv_A]|]. rewrite dot_unit, dot_unit' by exact I. csolve.
Qed.

(** ---- the magnetic field has no divergence ---- *)
Definition hessG k x y i j : cpx := c_add (c_mul (cre (comp (unit3 j) i)) (gA k (dist x y))) (c_mul (cre (comp (vsub x y) i * comp (vsub x y) j)) (gB k (dist x y))).
Lemma deriv_gradG k x y i j : (j < 3)%nat -> x <> y -> deriv (fun z => gradG k z y i) x (unit3 j) (hessG k x y i j).
Proof.
  intros J N. unfold gradG. eapply deriv_eq; [apply deriv_mul; [apply deriv_coord|now apply deriv_A]|]. rewrite dot_unit by exact J. unfold hessG. csolve.
Qed.
Lemma hess_sym k x y i j : (i < 3)%nat -> (j < 3)%nat -> hessG k x y i j = hessG k x y j i.
Proof. intros I J. unfold hessG. replace (comp (unit3 j) i) with (comp (unit3 i) j) by (i3 i I; i3 j J; reflexivity). csolve. Qed.
Definition magDiv k x i q : cpx :=
  c_mul (c_add (c_mul (hessG (modifiedWaveNumber k) x (q_point q) (next i) i) (at2 (q_values q) 0 (next (next i))))
               (c_opp (c_mul (hessG (modifiedWaveNumber k) x (q_point q) (next (next i)) i) (at2 (q_values q) 0 (next i))))) (cre (q_weight q)).
Lemma mag_deriv k x i qs : (i < 3)%nat -> offPoints qs x -> deriv (component (magneticField k) qs i) x (unit3 i) (csumq (magDiv k x i) qs).
Proof.
  intros I O. apply deriv_component; [apply reg_m|exact I|exact O|]. intros q H. specialize (O q H).
  eapply deriv_near_eq; [exact O|intros z N; symmetry; now apply term_m|].
  unfold magDiv. eapply deriv_eq; [apply deriv_mul; [apply deriv_add; [apply deriv_mul; [now apply deriv_gradG|apply deriv_const]|apply deriv_opp, deriv_mul; [now apply deriv_gradG|apply deriv_const]]|apply deriv_const]|]. csolve.
Qed.
Lemma mag_div0 k x qs : c_add (c_add (csumq (magDiv k x 0) qs) (csumq (magDiv k x 1) qs)) (csumq (magDiv k x 2) qs) = (0, 0).
Proof.
  induction qs as [|q qs IH]; cbn [csumq]; [unfold c_add; cbn; f_equal; ring|].
  assert (E : c_add (c_add (magDiv k x 0 q) (magDiv k x 1 q)) (magDiv k x 2 q) = (0, 0)).
  { unfold magDiv. cbn [next]. rewrite (@hess_sym _ _ _ 1 0), (@hess_sym _ _ _ 2 0), (@hess_sym _ _ _ 2 1) by lia. csolve. }
  revert IH E. generalize (magDiv k x 0 q) (magDiv k x 1 q) (magDiv k x 2 q) (csumq (magDiv k x 0) qs) (csumq (magDiv k x 1) qs) (csumq (magDiv k x 2) qs).
  intros [a a'] [b b'] [c c'] [d d'] [e e'] [f f']. unfold c_add. cbn. intros A B. injection A as A A'. injection B as B B'. f_equal; lra.
Qed.
