(** C112-C115: kernels, potentials, far fields. *)
From Coq Require Import Reals List Lra Lia FunctionalExtensionality.
Import ListNotations.
From Verif Require Import Base ComplexR VecModel VecSpec KernModel KernSpec KernProofs KernProofs2 KernProofs3 KernProofs4 KernProofs5 KernProofs6.
Set Implicit Arguments.
Unset Strict Implicit.
Local Open Scope R_scope.

Lemma deriv_green_x k x y d : x <> y -> deriv (fun z => green k z y) x d (c_mul (cre (dot (vsub x y) d)) (gA k (dist x y))).
Proof. intros N. apply (deriv_ext (f := fun z => gG k (dist z y))); [intros z; now rewrite green_G|]. now apply deriv_G. Qed.
Lemma deriv_green_y k x y d : x <> y -> deriv (fun z => green k x z) y d (c_mul (cre (- dot (vsub x y) d)) (gA k (dist x y))).
Proof.
  intros N. apply (deriv_ext (f := fun z => gG k (dist z x))); [intros z; now rewrite green_G, dist_sym|].
  eapply deriv_eq; [apply deriv_G; congruence|]. rewrite (dist_sym y x). f_equal. f_equal. destruct x, y, d. unfold dot, vsub. cbn. ring.
Qed.
Lemma deriv_dlp k x nx y ny d : x <> y -> deriv (fun z => entry (evalKernel (modDlp k) z nx y ny) 0 0) x d
  (c_opp (c_add (c_mul (cre (dot d ny)) (gA k (dist x y))) (c_mul (cre (dot (vsub x y) d * dot (vsub x y) ny)) (gB k (dist x y))))).
Proof.
  intros N. apply (deriv_near_eq (y := y) (f := fun z => c_opp (c_mul (cre (dot (vsub z y) ny)) (gA k (dist z y))))); [exact N| |].
  - intros z N'. rewrite modDlp_val by exact N'. cbn -[c_mul]. csolve.
  - eapply deriv_eq; [apply deriv_opp, deriv_mul; [apply deriv_dot|now apply deriv_A]|]. csolve.
Qed.

(** C112: off the diagonal every kernel is the fundamental solution exp(-k|x-y|)/(4 pi |x-y|) or the
    derivative of it that the operator's definition asks for, for every complex wave number *)
Theorem C112_kernels_are_derivatives :
  forall (k : cpx) (x nx y ny : vec), x <> y ->
  evalKernel (modSlp k) x nx y ny = Some [[green k x y]] /\
  (exists d, evalKernel (modDlp k) x nx y ny = Some [[d]] /\ deriv (fun z => green k x z) y ny d) /\
  (exists d, evalKernel (modAdlp k) x nx y ny = Some [[d]] /\ deriv (fun z => green k z y) x nx d) /\
  (exists h, evalKernel (modHyp k) x nx y ny = Some [[h]] /\
     deriv (fun z => entry (evalKernel (modDlp k) z nx y ny) 0 0) x nx (c_opp h)) /\
  evalKernel (modHypPair k) x nx y ny = Some [[green k x y]; [c_mul (c_mul k k) (green k x y)]] /\
  (exists g0 g1 g2, evalKernel (maxwellDl k) x nx y ny = Some [[g0; g1; g2]] /\
     deriv (fun z => green k z y) x (unit3 0) g0 /\ deriv (fun z => green k z y) x (unit3 1) g1 /\ deriv (fun z => green k z y) x (unit3 2) g2) /\
  (k <> (0, 0) -> exists a b, evalKernel (maxwellSlbo k) x nx y ny = Some [[a]; [b]] /\ a = c_mul k (green k x y) /\ c_mul k b = green k x y) /\
  (k <> (0, 0) -> exists a g0 g1 g2, evalKernel (maxwellSlpo k) x nx y ny = Some [[a]; [g0; g1; g2]] /\ a = c_mul k (green k x y) /\
     deriv (fun z => green k z y) x (unit3 0) (c_mul k g0) /\ deriv (fun z => green k z y) x (unit3 1) (c_mul k g1) /\ deriv (fun z => green k z y) x (unit3 2) (c_mul k g2)).
Proof.
  intros k x nx y ny N.
  assert (KD : forall z, k <> (0, 0) -> c_mul k (cdiv z k) = z).
  { intros [a b] K. pose proof (cabs2_pos (k := k) K) as P. destruct k as [k1 k2]. unfold cabs2 in P. cbn in P. unfold cdiv, cinv, cabs2, c_mul. cbn. f_equal; field; lra. }
  assert (GI : forall i, (i < 3)%nat -> deriv (fun z => green k z y) x (unit3 i) (c_mul (cre (comp (vsub x y) i)) (gA k (dist x y)))).
  { intros i I. eapply deriv_eq; [now apply deriv_green_x|]. now rewrite dot_unit. }
  split; [|split; [|split; [|split; [|split; [|split; [|split]]]]]].
  - now rewrite modSlp_val, green_G.
  - eexists. split; [now apply modDlp_val|]. now apply deriv_green_y.
  - eexists. split; [now apply modAdlp_val|]. now apply deriv_green_x.
  - eexists. split; [now apply modHyp_val|]. eapply deriv_eq; [now apply deriv_dlp|]. reflexivity.
  - rewrite modHypPair_val, green_G by exact N. set (g := gG k (dist x y)). replace (c_mul (c_mul g k) k) with (c_mul (c_mul k k) g) by csolve. reflexivity.
  - do 3 eexists. split; [rewrite maxwellDl_val by exact N; reflexivity|]. split; [|split]; apply GI; lia.
  - intros K. do 2 eexists. split; [now apply maxwellSlbo_val|]. rewrite green_G. split; [csolve|]. now apply KD.
  - intros K. do 4 eexists. split; [rewrite maxwellSlpo_val by assumption; reflexivity|]. rewrite green_G. split; [reflexivity|]. rewrite !KD by exact K. split; [|split]; apply GI; lia.
Qed.
(** the Laplace kernels are the ones of wave number 0, their gradient kernels the gradients *)
Theorem C112_laplace :
  forall (x nx y ny : vec), x <> y ->
  evalKernel laplaceSlp x nx y ny = evalKernel (modSlp (0, 0)) x nx y ny /\
  evalKernel laplaceDlp x nx y ny = evalKernel (modDlp (0, 0)) x nx y ny /\
  evalKernel laplaceAdlp x nx y ny = evalKernel (modAdlp (0, 0)) x nx y ny /\
  evalKernel laplaceHyp x nx y ny = evalKernel (modHyp (0, 0)) x nx y ny /\
  evalKernel laplaceSlpGrad x nx y ny = evalKernel (maxwellDl (0, 0)) x nx y ny /\
  green (0, 0) x y = cre (1 / (4 * PI * dist x y)) /\
  (exists g0 g1 g2, evalKernel laplaceDlpGrad x nx y ny = Some [[g0; g1; g2]] /\
     deriv (fun z => entry (evalKernel laplaceDlp z nx y ny) 0 0) x (unit3 0) g0 /\
     deriv (fun z => entry (evalKernel laplaceDlp z nx y ny) 0 0) x (unit3 1) g1 /\
     deriv (fun z => entry (evalKernel laplaceDlp z nx y ny) 0 0) x (unit3 2) g2).
Proof.
  intros x nx y ny N. change (0, 0) with c0.
  split; [|split; [|split; [|split; [|split; [|split]]]]].
  - now rewrite laplaceSlp_val, modSlp_val.
  - now rewrite laplaceDlp_val, modDlp_val.
  - now rewrite laplaceAdlp_val, modAdlp_val.
  - now rewrite laplaceHyp_val, modHyp_val.
  - now rewrite laplaceSlpGrad_val, maxwellDl_val.
  - rewrite green_G, ex0G. f_equal. pose proof (dist_pos N). field. pose proof PI_RGT_0. lra.
  - assert (D : forall i, (i < 3)%nat -> deriv (fun z => entry (evalKernel laplaceDlp z nx y ny) 0 0) x (unit3 i)
       (c_opp (c_add (c_mul (cre (comp ny i)) (gA c0 (dist x y))) (c_mul (cre (dot (vsub x y) ny * comp (vsub x y) i)) (gB c0 (dist x y)))))).
    { intros i I. apply (deriv_near_eq (y := y) (f := fun z => entry (evalKernel (modDlp c0) z nx y ny) 0 0)); [exact N|intros z N'; now rewrite laplaceDlp_val, modDlp_val|].
      eapply deriv_eq; [now apply deriv_dlp|]. rewrite dot_unit, dot_unit' by exact I. csolve. }
    do 3 eexists. split; [rewrite laplaceDlpGrad_val by exact N; reflexivity|]. split; [|split]; apply D; lia.
Qed.
(** exchanging the points: the single layer and hypersingular kernels are symmetric, the adjoint
    double layer kernel is the double layer kernel with test and trial point exchanged *)
Theorem C112_symmetry :
  forall (k : cpx) (x nx y ny : vec), x <> y ->
  evalKernel (modSlp k) x nx y ny = evalKernel (modSlp k) y ny x nx /\
  evalKernel (modAdlp k) x nx y ny = evalKernel (modDlp k) y ny x nx /\
  evalKernel (modHyp k) x nx y ny = evalKernel (modHyp k) y ny x nx.
Proof.
  intros k x nx y ny N. assert (N' : y <> x) by congruence.
  rewrite !modSlp_val, modAdlp_val, modDlp_val, !modHyp_val, (dist_sym y x) by assumption. split; [reflexivity|]. split.
  - do 5 f_equal. destruct x, y, nx. unfold dot, vsub. cbn. ring.
  - do 3 f_equal. f_equal; f_equal; f_equal; destruct x, y, nx, ny; unfold dot, vsub; cbn; ring.
Qed.
(** every kernel reads only fields of the geometrical data it has asked for *)
Theorem C112_dependencies :
  forall (k : cpx) (x nx y ny : vec) (K : kernel),
  In K [laplaceSlp; laplaceDlp; laplaceAdlp; laplaceHyp; laplaceSlpGrad; laplaceDlpGrad; modSlp k; modDlp k; modAdlp k; modHyp k; modHypPair k;
        farSlp k; farDlp k; maxwellSlbo k; maxwellSlpo k; maxwellDl k; maxwellFarSl k; maxwellFarDl k] ->
  evalKernel K x nx y ny <> None.
Proof. intros k x nx y ny K H. cbn in H. repeat (destruct H as [<-|H]; [discriminate|]). destruct H. Qed.

Example C112_example :
  evalKernel (modDlp (1, 0)) (V 0 0 1) (V 0 0 1) (V 0 0 0) (V 0 0 1) <> Some [[(0, 0)]].
Proof.
  assert (N : V 0 0 1 <> V 0 0 0) by (intros E; injection E; lra).
  rewrite modDlp_val by exact N. intros E.
  assert (A : c_mul (cre (- dot (vsub (V 0 0 1) (V 0 0 0)) (V 0 0 1))) (gA (1, 0) (dist (V 0 0 1) (V 0 0 0))) = (0, 0)) by congruence. clear E.
  assert (D : dist (V 0 0 1) (V 0 0 0) = 1) by (unfold dist, dot, vsub; cbn; replace ((0 - 0) * (0 - 0) + (0 - 0) * (0 - 0) + (1 - 0) * (1 - 0)) with 1 by ring; apply sqrt_1).
  assert (X : exists e, 0 < e /\ ex (1, 0) 1 = cre e).
  { unfold ex, cexp, c_mul, c_opp, cre. cbn [fst snd]. match goal with |- context [exp ?t] => exists (exp t); split; [apply exp_pos|] end.
    match goal with |- context [cos ?t] => replace t with 0 by ring end. rewrite cos_0, sin_0. f_equal; ring. }
  destruct X as (e & Q & X). rewrite D in A. unfold gA in A. rewrite X in A. unfold c_mul, c_add, cre, dot, vsub in A. cbn in A. injection A as A _. pose proof PI_RGT_0 as P.
  assert (Q' : 0 < / (4 * PI * (1 * 1 * 1))) by (apply Rinv_0_lt_compat; lra). nra.
Qed.

Lemma mwn_sq k : c_mul (modifiedWaveNumber k) (modifiedWaveNumber k) = c_opp (c_mul k k).
Proof. destruct k as [a b]. unfold modifiedWaveNumber, cdiv, cinv, cabs2, cI, c_mul, c_opp. cbn. f_equal; field. Qed.
Lemma mwn_val k : modifiedWaveNumber k = c_opp (c_mul cI k).
Proof. destruct k as [a b]. unfold modifiedWaveNumber, cdiv, cinv, cabs2, cI, c_mul, c_opp. cbn. f_equal; field. Qed.
Lemma lap_to U f F G : openLines U -> (forall z, F z = G z) -> laplacianOn U f F -> laplacianOn U f G.
Proof. intros O E. apply lap_ext; [exact O|reflexivity|]. intros z _. apply E. Qed.

(** C113: whatever the quadrature points, weights and density values, the evaluated potentials solve
    the differential equation exactly at every point that is not a quadrature point *)
Theorem C113_potentials_solve_the_equation :
  forall (qs : list qpoint),
  (forall k, laplacianOn (offPoints qs) (component (modifiedHelmholtzSingleLayer k) qs 0) (fun z => c_mul (c_mul k k) (component (modifiedHelmholtzSingleLayer k) qs 0 z))) /\
  (forall k, laplacianOn (offPoints qs) (component (modifiedHelmholtzDoubleLayer k) qs 0) (fun z => c_mul (c_mul k k) (component (modifiedHelmholtzDoubleLayer k) qs 0 z))) /\
  (forall k, laplacianOn (offPoints qs) (component (helmholtzSingleLayer k) qs 0) (fun z => c_opp (c_mul (c_mul k k) (component (helmholtzSingleLayer k) qs 0 z)))) /\
  (forall k, laplacianOn (offPoints qs) (component (helmholtzDoubleLayer k) qs 0) (fun z => c_opp (c_mul (c_mul k k) (component (helmholtzDoubleLayer k) qs 0 z)))) /\
  laplacianOn (offPoints qs) (component laplaceSingleLayer qs 0) (fun _ => (0, 0)) /\
  laplacianOn (offPoints qs) (component laplaceDoubleLayer qs 0) (fun _ => (0, 0)) /\
  (forall i, (i < 3)%nat -> laplacianOn (offPoints qs) (component laplaceSingleLayerGradient qs i) (fun _ => (0, 0))) /\
  (forall k i, k <> (0, 0) -> (i < 3)%nat -> laplacianOn (offPoints qs) (component (electricField k) qs i) (fun z => c_opp (c_mul (c_mul k k) (component (electricField k) qs i z)))) /\
  (forall k i, (i < 3)%nat -> laplacianOn (offPoints qs) (component (magneticField k) qs i) (fun z => c_opp (c_mul (c_mul k k) (component (magneticField k) qs i z)))).
Proof.
  intros qs. assert (O : openLines (offPoints qs)) by apply open_off.
  assert (H : forall k u, c_mul (c_mul (modifiedWaveNumber k) (modifiedWaveNumber k)) u = c_opp (c_mul (c_mul k k) u)) by (intros k u; rewrite mwn_sq; csolve).
  assert (Z : forall u, c_mul c0 u = (0, 0)) by (intros u; unfold c0, c_mul; cbn; f_equal; ring).
  split; [|split; [|split; [|split; [|split; [|split; [|split; [|split]]]]]]].
  - intros k. apply lap_msl.
  - intros k. apply lap_mdl.
  - intros k. eapply lap_to; [exact O| |apply lap_msl]. intros z. apply H.
  - intros k. eapply lap_to; [exact O| |apply lap_mdl]. intros z. apply H.
  - eapply lap_to; [exact O| |apply lap_lsl]. intros z. apply Z.
  - eapply lap_to; [exact O| |apply lap_ldl]. intros z. apply Z.
  - intros i I. eapply lap_to; [exact O| |now apply lap_lslg]. intros z. apply Z.
  - intros k i K I. eapply lap_to; [exact O| |now apply lap_e]. intros z. apply H.
  - intros k i I. eapply lap_to; [exact O| |now apply lap_m]. intros z. apply H.
Qed.
(** the gradient operators return the gradients of the potentials; the magnetic field is free of
    divergence; evaluation never reads missing data and returns as many components as declared *)
Theorem C113_gradients_and_divergence :
  forall (qs : list qpoint) (x : vec), offPoints qs x ->
  (forall i, (i < 3)%nat -> deriv (component laplaceSingleLayer qs 0) x (unit3 i) (component laplaceSingleLayerGradient qs i x)) /\
  (forall i, (i < 3)%nat -> deriv (component laplaceDoubleLayer qs 0) x (unit3 i) (component laplaceDoubleLayerGradient qs i x)) /\
  (forall k, exists d0 d1 d2,
     deriv (component (magneticField k) qs 0) x (unit3 0) d0 /\ deriv (component (magneticField k) qs 1) x (unit3 1) d1 /\
     deriv (component (magneticField k) qs 2) x (unit3 2) d2 /\ c_add (c_add d0 d1) d2 = (0, 0)).
Proof.
  intros qs x O. split; [|split].
  - intros i I. now apply grad_lsl.
  - intros i I. now apply grad_ldl.
  - intros k. exists (csumq (magDiv k x 0) qs), (csumq (magDiv k x 1) qs), (csumq (magDiv k x 2) qs).
    split; [apply mag_deriv; [lia|exact O]|]. split; [apply mag_deriv; [lia|exact O]|]. split; [apply mag_deriv; [lia|exact O]|]. apply mag_div0.
Qed.
Theorem C113_evaluation_succeeds :
  forall (k : cpx) (qs : list qpoint) (x : vec) (op : potOp),
  In op [laplaceSingleLayer; laplaceDoubleLayer; laplaceSingleLayerGradient; laplaceDoubleLayerGradient; modifiedHelmholtzSingleLayer k; modifiedHelmholtzDoubleLayer k;
         helmholtzSingleLayer k; helmholtzDoubleLayer k; helmholtzFarSingleLayer k; helmholtzFarDoubleLayer k; electricField k; magneticField k; electricFar k; magneticFar k] ->
  exists l, evaluate op qs x = Some l /\ length l = p_dim op.
Proof.
  intros k qs x op H. apply evaluate_ok. cbn in H.
  repeat (destruct H as [<-|H]; [first [apply reg_lsl|apply reg_ldl|apply reg_lslg|apply reg_ldlg|apply reg_msl|apply reg_mdl|apply reg_fsl|apply reg_fdl|apply reg_e|apply reg_m|apply reg_ef|apply reg_mf]|]). destruct H.
Qed.
(** the potential of a sum of two sets of samples is the sum of the potentials, at every point *)
Theorem C113_additive :
  forall (k : cpx) (qs1 qs2 : list qpoint) (x : vec) (op : potOp) (i : nat),
  In op [laplaceSingleLayer; laplaceDoubleLayer; laplaceSingleLayerGradient; laplaceDoubleLayerGradient; modifiedHelmholtzSingleLayer k; modifiedHelmholtzDoubleLayer k;
         helmholtzFarSingleLayer k; helmholtzFarDoubleLayer k; electricField k; magneticField k; electricFar k; magneticFar k] ->
  (i < p_dim op)%nat -> component op (qs1 ++ qs2) i x = c_add (component op qs1 i x) (component op qs2 i x).
Proof.
  intros k qs1 qs2 x op i H I.
  assert (R : regular op).
  { cbn in H. repeat (destruct H as [<-|H]; [first [apply reg_lsl|apply reg_ldl|apply reg_lslg|apply reg_ldlg|apply reg_msl|apply reg_mdl|apply reg_fsl|apply reg_fdl|apply reg_e|apply reg_m|apply reg_ef|apply reg_mf]|]). destruct H. }
  rewrite !component_sum by assumption. induction qs1 as [|q qs IH]; cbn [csumq app].
  - unfold c_add. cbn. destruct (csumq (term op i x) qs2). cbn. f_equal; ring.
  - rewrite IH. unfold c_add. cbn. f_equal; ring.
Qed.
Definition exampleQ : list qpoint := [QPoint (V 0 0 0) (V 0 0 1) 2 [[(3, 0)]]].
Example C113_example : offPoints exampleQ (V 0 0 1) /\ component laplaceSingleLayer exampleQ 0 (V 0 0 1) <> (0, 0).
Proof.
  assert (N : V 0 0 1 <> V 0 0 0) by (intros E; injection E; lra).
  split; [intros q [<-|[]]; exact N|].
  rewrite component_sum by (first [apply reg_lsl|cbn; lia]). cbn [csumq exampleQ]. rewrite term_lsl by exact N. cbn [q_point].
  assert (D : dist (V 0 0 1) (V 0 0 0) = 1) by (unfold dist, dot, vsub; cbn; replace ((0 - 0) * (0 - 0) + (0 - 0) * (0 - 0) + (1 - 0) * (1 - 0)) with 1 by ring; apply sqrt_1).
  rewrite D, ex0G. unfold c_add, c_mul, cre. cbn. intros E. injection E as E _. pose proof PI_RGT_0 as P.
  assert (Q' : 0 < / (4 * PI * 1)) by (apply Rinv_0_lt_compat; lra). nra.
Qed.

(** C114: the far field operators return the limits of r exp(-ikr) times the potentials in direction x *)
Theorem C114_far_field_limits :
  forall (k : cpx) (qs : list qpoint) (x : vec), dot x x = 1 ->
  let scaled (f : vec -> cpx) r := c_mul (c_mul (cre r) (cexp (c_opp (c_mul (c_mul cI k) (cre r))))) (f (vscale r x)) in
  limitAtInfinity (scaled (component (helmholtzSingleLayer k) qs 0)) (component (helmholtzFarSingleLayer k) qs 0 x) /\
  limitAtInfinity (scaled (component (helmholtzDoubleLayer k) qs 0)) (component (helmholtzFarDoubleLayer k) qs 0 x) /\
  (forall i, (i < 3)%nat -> k <> (0, 0) -> limitAtInfinity (scaled (component (electricField k) qs i)) (component (electricFar k) qs i x)) /\
  (forall i, (i < 3)%nat -> limitAtInfinity (scaled (component (magneticField k) qs i)) (component (magneticFar k) qs i x)).
Proof.
  intros k qs x U scaled.
  assert (E : forall f, scaled f = fun r => c_mul (amp (modifiedWaveNumber k) r) (f (vscale r x))).
  { intros f. apply functional_extensionality. intros r. unfold scaled, amp. rewrite mwn_val. do 2 f_equal. f_equal. csolve. }
  rewrite !E. split; [now apply far_slp|]. split; [now apply far_dlp|]. split.
  - intros i I K. rewrite E. now apply far_e.
  - intros i I. rewrite E. now apply far_m.
Qed.
Example C114_example : dot (V 0 0 1) (V 0 0 1) = 1 /\ component (helmholtzFarSingleLayer (1, 0)) exampleQ 0 (V 0 0 1) <> (0, 0).
Proof.
  split; [unfold dot; cbn; ring|]. rewrite component_sum by (first [apply reg_fsl|cbn; lia]). cbn -[c_mul cre cexp loop3 c_add modifiedWaveNumber comp].
  unfold term, kvals; cbn -[c_mul cre cexp loop3 c_add modifiedWaveNumber comp]; rewrite loop_dot2. replace (dot (V 0 0 1) (V 0 0 0)) with 0 by (unfold dot; cbn; ring). unfold c_add, c_mul, cre, cexp. cbn -[modifiedWaveNumber].
  destruct (modifiedWaveNumber (1, 0)) as [a b]. cbn. replace (a * 0 - b * 0) with 0 by ring. replace (a * 0 + b * 0) with 0 by ring. rewrite exp_0, cos_0, sin_0.
  intros E. injection E as E _. pose proof PI_RGT_0 as P. assert (Q' : 0 < 1 / (4 * PI)) by (apply Rdiv_lt_0_compat; lra). nra.
Qed.

(** C115: the Helmholtz operators use the outgoing fundamental solution exp(ik|x-y|)/(4 pi |x-y|); for
    real k it has the modulus of the Laplace kernel, for Im k > 0 a smaller one *)
Theorem C115_outgoing :
  forall (k : cpx) (x nx y ny : vec), x <> y ->
  evalKernel (modSlp (modifiedWaveNumber k)) x nx y ny =
    Some [[cscale (/ (4 * PI * dist x y)) (cexp (c_mul (c_mul cI k) (cre (dist x y))))]] /\
  green (modifiedWaveNumber k) x y = cscale (/ (4 * PI * dist x y)) (cexp (c_mul (c_mul cI k) (cre (dist x y)))) /\
  cabs2 (green (modifiedWaveNumber k) x y) = exp (- 2 * snd k * dist x y) * cabs2 (green (0, 0) x y).
Proof.
  intros k x nx y ny N.
  assert (G : green (modifiedWaveNumber k) x y = cscale (/ (4 * PI * dist x y)) (cexp (c_mul (c_mul cI k) (cre (dist x y))))).
  { unfold green. f_equal. f_equal. rewrite mwn_val. unfold cscale, c_mul, c_opp, cre. cbn. f_equal; ring. }
  split; [|split; [exact G|]].
  - rewrite modSlp_val by exact N. now rewrite <- green_G, G.
  - rewrite G. change (0, 0) with c0. rewrite (green_G c0), ex0G. destruct k as [a b]. unfold cabs2, cscale, cexp, c_mul, cI, cre. cbn.
    set (d := dist x y). pose proof (sin2_cos2 ((0 * b + 1 * a) * d + (0 * a - 1 * b) * 0)) as S. unfold Rsqr in S.
    replace (0 * a - 1 * b) with (- b) in * by ring. replace (0 * b + 1 * a) with a in * by ring.
    replace (- b * d - a * 0) with (- b * d) in * by ring.
    replace (- b * 0 + a * d) with (a * d) by ring. replace (a * d + - b * 0) with (a * d) in S by ring.
    replace (-2 * b * d) with (- b * d + - b * d) by ring. rewrite exp_plus. set (e := exp (- b * d)). set (w := / (4 * PI * d)).
    transitivity (w * w * (e * e) * (sin (a * d) * sin (a * d) + cos (a * d) * cos (a * d))); [ring|]. rewrite S. ring.
Qed.
Example C115_example : modifiedWaveNumber (2, 0) = (0, -2).
Proof. rewrite mwn_val. unfold c_opp, c_mul, cI. cbn. f_equal; ring. Qed.

Print Assumptions C112_kernels_are_derivatives.
Print Assumptions C112_laplace.
Print Assumptions C112_symmetry.
Print Assumptions C112_dependencies.
Print Assumptions C113_potentials_solve_the_equation.
Print Assumptions C113_gradients_and_divergence.
Print Assumptions C113_evaluation_succeeds.
Print Assumptions C113_additive.
Print Assumptions C114_far_field_limits.
Print Assumptions C115_outgoing.
