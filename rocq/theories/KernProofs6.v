(** Far fields as limits. *)
From Coq Require Import Reals List Lra Lia FunctionalExtensionality.
Import ListNotations.
From Verif Require Import Base ComplexR VecModel VecSpec KernModel KernSpec KernProofs KernProofs2 KernProofs3 KernProofs4 KernProofs5.
Set Implicit Arguments.
Unset Strict Implicit.
Local Open Scope R_scope.

Definition cc (F : R -> cpx) : Prop := continuity_pt (fun s => fst (F s)) 0 /\ continuity_pt (fun s => snd (F s)) 0.
Lemma ct_cst c : continuity_pt (fun _ => c) 0. Proof. apply continuity_const. now intros x y. Qed.
Lemma ct_id : continuity_pt (fun s => s) 0. Proof. apply derivable_continuous_pt. exact (derivable_pt_id 0). Qed.
Lemma ct_add f g : continuity_pt f 0 -> continuity_pt g 0 -> continuity_pt (fun s => f s + g s) 0. Proof. intros. now apply continuity_pt_plus. Qed.
Lemma ct_sub f g : continuity_pt f 0 -> continuity_pt g 0 -> continuity_pt (fun s => f s - g s) 0. Proof. intros. now apply continuity_pt_minus. Qed.
Lemma ct_opp f : continuity_pt f 0 -> continuity_pt (fun s => - f s) 0. Proof. intros. now apply continuity_pt_opp. Qed.
Lemma ct_mul f g : continuity_pt f 0 -> continuity_pt g 0 -> continuity_pt (fun s => f s * g s) 0. Proof. intros. now apply continuity_pt_mult. Qed.
Lemma ct_inv f : continuity_pt f 0 -> f 0 <> 0 -> continuity_pt (fun s => / f s) 0. Proof. intros. now apply continuity_pt_inv. Qed.
Lemma ct_sqrt f : continuity_pt f 0 -> 0 <= f 0 -> continuity_pt (fun s => sqrt (f s)) 0.
Proof. intros C P. apply (continuity_pt_comp f sqrt); [exact C|]. now apply continuity_pt_sqrt. Qed.
Lemma ct_exp f : continuity_pt f 0 -> continuity_pt (fun s => exp (f s)) 0.
Proof. intros C. apply (continuity_pt_comp f exp); [exact C|]. apply derivable_continuous_pt, derivable_exp. Qed.
Lemma ct_cos f : continuity_pt f 0 -> continuity_pt (fun s => cos (f s)) 0.
Proof. intros C. apply (continuity_pt_comp f cos); [exact C|]. apply continuity_cos. Qed.
Lemma ct_sin f : continuity_pt f 0 -> continuity_pt (fun s => sin (f s)) 0.
Proof. intros C. apply (continuity_pt_comp f sin); [exact C|]. apply continuity_sin. Qed.
Lemma cc_cst c : cc (fun _ => c). Proof. split; apply ct_cst. Qed.
Lemma cc_re f : continuity_pt f 0 -> cc (fun s => cre (f s)). Proof. intros C. split; cbn; [exact C|apply ct_cst]. Qed.
Lemma cc_add F G : cc F -> cc G -> cc (fun s => c_add (F s) (G s)).
Proof. intros [A B] [C D]. split; cbn; now apply ct_add. Qed.
Lemma cc_opp F : cc F -> cc (fun s => c_opp (F s)).
Proof. intros [A B]. split; cbn; now apply ct_opp. Qed.
Lemma cc_mul F G : cc F -> cc G -> cc (fun s => c_mul (F s) (G s)).
Proof. intros [A B] [C D]. split; cbn; [apply ct_sub|apply ct_add]; now apply ct_mul. Qed.
Lemma cc_exp F : cc F -> cc (fun s => cexp (F s)).
Proof. intros [A B]. split; cbn; (apply ct_mul; [now apply ct_exp|]); [now apply ct_cos|now apply ct_sin]. Qed.
Lemma cc_sum (F : qpoint -> R -> cpx) qs : (forall q, cc (F q)) -> cc (fun s => csumq (fun q => F q s) qs).
Proof. intros H. induction qs as [|q qs IH]; cbn [csumq]; [apply cc_cst|]. now apply cc_add. Qed.

Lemma ct_eps f : continuity_pt f 0 -> forall eps, 0 < eps -> exists d, 0 < d /\ forall s, 0 < s -> s < d -> Rabs (f s - f 0) < eps.
Proof.
  intros C eps P. destruct (C eps P) as (d & D & H). exists d. split; [exact D|]. intros s S L. unfold dist, R_met, R_dist in H. cbn in H. unfold R_dist in H. apply H.
  split; [split; [exact I|lra]|]. rewrite Rminus_0_r, Rabs_right; lra.
Qed.
Lemma limit_cc (f F : _ -> cpx) B0 : cc F -> (forall r, B0 < r -> 0 < r -> f r = F (/ r)) -> limitAtInfinity f (F 0).
Proof.
  intros [A B] H eps P. destruct (ct_eps A P) as (d & D & HA), (ct_eps B P) as (d' & D' & HB).
  exists (Rmax B0 (/ Rmin d d')). intros r L. assert (M : 0 < Rmin d d') by now apply Rmin_glb_lt.
  assert (r > / Rmin d d') as L1 by (eapply Rle_lt_trans; [apply Rmax_r|exact L]). assert (0 < / Rmin d d') by now apply Rinv_0_lt_compat.
  assert (L2 : / r < Rmin d d'). { rewrite <- (Rinv_inv (Rmin d d')). apply Rinv_lt_contravar; nra. }
  assert (0 < / r) by (apply Rinv_0_lt_compat; lra).
  rewrite H; [|eapply Rle_lt_trans; [apply Rmax_l|exact L]|lra].
  split; [apply HA|apply HB]; try assumption; (eapply Rlt_le_trans; [exact L2|]); [apply Rmin_l|apply Rmin_r].
Qed.

(** ---- geometry of a distant point ---- *)
Definition rho (x y : vec) (s : R) : R := sqrt (1 - 2 * s * dot x y + s * s * dot y y).
Definition phase (x y : vec) (s : R) : R := (2 * dot x y - s * dot y y) * / (1 + rho x y s).
Lemma rho0 x y : rho x y 0 = 1. Proof. unfold rho. replace (1 - 2 * 0 * dot x y + 0 * 0 * dot y y) with 1 by ring. apply sqrt_1. Qed.
Lemma ct_rho x y : continuity_pt (rho x y) 0.
Proof.
  unfold rho. apply ct_sqrt; [|lra]. apply ct_add; [apply ct_sub; [apply ct_cst|apply ct_mul; [apply ct_mul; [apply ct_cst|apply ct_id]|apply ct_cst]]|].
  apply ct_mul; [apply ct_mul; apply ct_id|apply ct_cst].
Qed.
Lemma ct_phase x y : continuity_pt (phase x y) 0.
Proof.
  unfold phase. apply ct_mul; [apply ct_sub; [apply ct_cst|apply ct_mul; [apply ct_id|apply ct_cst]]|]. apply ct_inv; [|rewrite rho0; lra]. apply ct_add; [apply ct_cst|apply ct_rho].
Qed.
Lemma phase0 x y : phase x y 0 = dot x y. Proof. unfold phase. rewrite rho0. field. Qed.
Lemma far_ne x y r : dot x x = 1 -> 1 + dot y y < r -> vscale r x <> y.
Proof.
  intros U H E. assert (Q : dot y y = r * r). { rewrite <- E. destruct x as [a b c]. unfold dot, vscale in *. cbn in *. nra. } assert (0 <= r * r) by nra. nra.
Qed.
Lemma dist_far x y r : dot x x = 1 -> 0 < r -> dist (vscale r x) y = r * rho x y (/ r).
Proof.
  intros U P. unfold dist, rho. transitivity (sqrt (r * r) * sqrt (1 - 2 * / r * dot x y + / r * / r * dot y y)); [|rewrite sqrt_square; [reflexivity|lra]]. rewrite <- sqrt_mult_alt by nra. f_equal.
  transitivity (r * r * dot x x - 2 * r * dot x y + dot y y); [destruct x, y; unfold dot, vsub, vscale; cbn; ring|]. rewrite U. field. lra.
Qed.
Lemma rho_sq x y s : dot x x = 1 -> rho x y s * rho x y s = 1 - 2 * s * dot x y + s * s * dot y y.
Proof.
  intros U. unfold rho. apply sqrt_sqrt. replace 1 with (dot x x). destruct x as [a b c], y as [d e f]. unfold dot. cbn.
  replace (a * a + b * b + c * c - 2 * s * (a * d + b * e + c * f) + s * s * (d * d + e * e + f * f)) with ((a - s * d) * (a - s * d) + (b - s * e) * (b - s * e) + (c - s * f) * (c - s * f)) by ring. generalize (a - s * d) (b - s * e) (c - s * f). intros u v w. nra.
Qed.
Lemma phase_far x y r : dot x x = 1 -> 0 < r -> r - r * rho x y (/ r) = phase x y (/ r).
Proof.
  intros U P. assert (0 <= rho x y (/ r)) as Q by apply sqrt_pos. unfold phase. pose proof (rho_sq y (/ r) U) as S. set (p := rho x y (/ r)) in *.
  apply (Rmult_eq_reg_r (1 + p)); [|lra]. rewrite Rmult_assoc, Rinv_l, Rmult_1_r by lra.
  replace ((r - r * p) * (1 + p)) with (r - r * (p * p)) by ring. rewrite S. field. lra.
Qed.
Lemma cexp_add a b : c_mul (cexp a) (cexp b) = cexp (c_add a b).
Proof. unfold c_mul, cexp, c_add. cbn. rewrite exp_plus, cos_plus, sin_plus. f_equal; ring. Qed.
Definition amp (k : cpx) (r : R) : cpx := c_mul (cre r) (cexp (c_mul k (cre r))).
Definition wave (k : cpx) (x y : vec) (s : R) : cpx := cexp (c_mul k (cre (phase x y s))).
Lemma cc_wave k x y : cc (wave k x y). Proof. apply cc_exp, cc_mul; [apply cc_cst|]. apply cc_re, ct_phase. Qed.
Lemma wave0 k x y : wave k x y 0 = cexp (c_mul k (cre (dot x y))). Proof. unfold wave. now rewrite phase0. Qed.
Lemma amp_ex k x y r : dot x x = 1 -> 0 < r -> c_mul (cexp (c_mul k (cre r))) (ex k (dist (vscale r x) y)) = wave k x y (/ r).
Proof.
  intros U P. unfold ex, wave. rewrite cexp_add. f_equal. rewrite dist_far, <- phase_far by assumption. csolve.
Qed.
Definition farG k x y s : cpx := c_mul (cre (/ (4 * PI * rho x y s))) (wave k x y s).
Definition farA k x y n s : cpx := c_mul (c_mul (cre (- (dot x n - s * dot y n) * / (4 * PI * (rho x y s * rho x y s * rho x y s)))) (c_add (cre s) (c_mul k (cre (rho x y s))))) (wave k x y s).
Lemma rho_pos x y r : dot x x = 1 -> 0 < r -> vscale r x <> y -> 0 < rho x y (/ r).
Proof. intros U P N. pose proof (dist_pos N) as D. rewrite dist_far in D by assumption. nra. Qed.
Lemma amp_G k x y r : dot x x = 1 -> 0 < r -> vscale r x <> y -> c_mul (amp k r) (gG k (dist (vscale r x) y)) = farG k x y (/ r).
Proof.
  intros U P N. pose proof (rho_pos U P N) as Q. unfold farG. rewrite <- (amp_ex k y U P). unfold amp, gG. rewrite dist_far by assumption.
  set (p := rho x y (/ r)) in *. generalize (cexp (c_mul k (cre r))) (ex k (r * p)). intros [a b] [c d]. kfield P.
Qed.
Lemma dot_far x y n r : 0 < r -> dot (vsub (vscale r x) y) n = r * (dot x n - / r * dot y n).
Proof. intros P. destruct x, y, n. unfold dot, vsub, vscale. cbn. field. lra. Qed.
Lemma amp_A k x y n r : dot x x = 1 -> 0 < r -> vscale r x <> y ->
  c_mul (amp k r) (c_mul (cre (dot (vsub (vscale r x) y) n)) (gA k (dist (vscale r x) y))) = farA k x y n (/ r).
Proof.
  intros U P N. pose proof (rho_pos U P N) as Q. unfold farA. rewrite <- (amp_ex k y U P). unfold amp, gA. rewrite dist_far, dot_far by assumption.
  set (p := rho x y (/ r)) in *. generalize (cexp (c_mul k (cre r))) (ex k (r * p)) (dot x n) (dot y n). intros [a b] [c d] u v. destruct k as [k1 k2]. kfield P.
Qed.
Lemma cc_farG k x y : cc (farG k x y).
Proof. apply cc_mul; [|apply cc_wave]. apply cc_re, ct_inv; [|rewrite rho0; pnz]. apply ct_mul; [apply ct_cst|apply ct_rho]. Qed.
Lemma cc_farA k x y n : cc (farA k x y n).
Proof.
  apply cc_mul; [|apply cc_wave]. apply cc_mul; [apply cc_re, ct_mul|apply cc_add; [apply cc_re, ct_id|apply cc_mul; [apply cc_cst|apply cc_re, ct_rho]]].
  - apply ct_opp, ct_sub; [apply ct_cst|apply ct_mul; [apply ct_id|apply ct_cst]].
  - apply ct_inv; [|rewrite rho0; pnz]. apply ct_mul; [apply ct_cst|]. apply ct_mul; [apply ct_mul; apply ct_rho|apply ct_rho].
Qed.
Lemma farG0 k x y : farG k x y 0 = c_mul (cre (1 / (4 * PI))) (cexp (c_mul k (cre (dot x y)))).
Proof. unfold farG. rewrite rho0, wave0. f_equal. f_equal. field. apply PI_neq0. Qed.
Lemma farA0 k x y n : farA k x y n 0 = c_mul (c_mul (cre (- dot x n * (1 / (4 * PI)))) k) (cexp (c_mul k (cre (dot x y)))).
Proof.
  unfold farA. rewrite rho0, wave0. generalize (cexp (c_mul k (cre (dot x y)))) (dot x n) (dot y n). intros [a b] u v. destruct k as [k1 k2]. pose proof PI_RGT_0. kfield P.
Qed.

(** ---- potentials ---- *)
Lemma off_far x qs : dot x x = 1 -> exists B, forall r, B < r -> offPoints qs (vscale r x).
Proof.
  intros U. induction qs as [|q qs (B & IH)]; [exists 0; intros r _ q []|].
  exists (Rmax (1 + dot (q_point q) (q_point q)) B). intros r H q' [<-|I].
  - apply far_ne; [exact U|]. eapply Rle_lt_trans; [apply Rmax_l|exact H].
  - apply IH; [|exact I]. eapply Rle_lt_trans; [apply Rmax_r|exact H].
Qed.
Lemma potential_far op op' i k qs x (F : qpoint -> R -> cpx) : regular op -> regular op' -> (i < p_dim op)%nat -> (i < p_dim op')%nat -> dot x x = 1 ->
  (forall q, cc (F q)) -> (forall q r, 0 < r -> vscale r x <> q_point q -> c_mul (amp k r) (term op i (vscale r x) q) = F q (/ r)) ->
  (forall q, F q 0 = term op' i x q) ->
  limitAtInfinity (fun r => c_mul (amp k r) (component op qs i (vscale r x))) (component op' qs i x).
Proof.
  intros R R' I I' U C H H'. destruct (off_far qs U) as (B & O).
  rewrite component_sum by assumption. rewrite (csumq_ext (g := fun q => F q 0)) by (intros q _; now rewrite H').
  change (csumq (fun q => F q 0) qs) with ((fun s => csumq (fun q => F q s) qs) 0).
  apply (@limit_cc (fun r => c_mul (amp k r) (component op qs i (vscale r x))) _ B); [now apply cc_sum|]. intros r L P. rewrite component_sum, csumq_scale by assumption.
  apply csumq_ext. intros q In. apply H; [exact P|]. now apply O.
Qed.
Definition wrap (q : qpoint) (F : R -> cpx) (s : R) : cpx := c_mul (c_mul (at2 (q_values q) 0 0) (F s)) (cre (q_weight q)).
Lemma cc_wrap q F : cc F -> cc (wrap q F). Proof. intros C. apply cc_mul; [apply cc_mul; [apply cc_cst|exact C]|apply cc_cst]. Qed.
Lemma amp_wrap a v f w : c_mul a (c_mul (c_mul v f) (cre w)) = c_mul (c_mul v (c_mul a f)) (cre w). Proof. csolve. Qed.
Lemma far_slp k qs x : dot x x = 1 ->
  limitAtInfinity (fun r => c_mul (amp (modifiedWaveNumber k) r) (component (helmholtzSingleLayer k) qs 0 (vscale r x))) (component (helmholtzFarSingleLayer k) qs 0 x).
Proof.
  intros U. set (k' := modifiedWaveNumber k). eapply (@potential_far _ _ 0 k' qs x (fun q => wrap q (farG k' x (q_point q)))); [apply reg_msl|apply reg_fsl|cbn; lia|cbn; lia|exact U| | |].
  - intros q. apply cc_wrap, cc_farG.
  - intros q r P N. unfold helmholtzSingleLayer. rewrite term_msl by exact N. rewrite amp_wrap. unfold wrap. now rewrite amp_G.
  - intros q. unfold wrap, term. cbn -[c_mul cre cexp loop3]. now rewrite farG0, loop_dot2.
Qed.
Lemma far_dlp k qs x : dot x x = 1 ->
  limitAtInfinity (fun r => c_mul (amp (modifiedWaveNumber k) r) (component (helmholtzDoubleLayer k) qs 0 (vscale r x))) (component (helmholtzFarDoubleLayer k) qs 0 x).
Proof.
  intros U. set (k' := modifiedWaveNumber k). eapply (@potential_far _ _ 0 k' qs x (fun q => wrap q (fun s => c_opp (farA k' x (q_point q) (q_normal q) s)))); [apply reg_mdl|apply reg_fdl|cbn; lia|cbn; lia|exact U| | |].
  - intros q. apply cc_wrap, cc_opp, cc_farA.
  - intros q r P N. unfold helmholtzDoubleLayer. rewrite term_mdl by exact N. fold k'. unfold wrap. rewrite amp_wrap, <- (amp_A _ (q_normal q) U P N). f_equal. f_equal. csolve.
  - intros q. unfold wrap, term. cbn -[c_mul cre cexp loop3 c_opp]. rewrite farA0, !loop_dot2. f_equal. f_equal. fold k'. generalize (cexp (c_mul k' (cre (dot x (q_point q))))) (dot x (q_normal q)). intros [a b] u. destruct k' as [k1 k2]. pose proof PI_RGT_0. kfield P.
Qed.
Lemma comp_dot v i : (i < 3)%nat -> comp v i = dot v (unit3 i). Proof. intros I. now rewrite dot_unit. Qed.
Lemma far_e k i qs x : (i < 3)%nat -> k <> c0 -> dot x x = 1 ->
  limitAtInfinity (fun r => c_mul (amp (modifiedWaveNumber k) r) (component (electricField k) qs i (vscale r x))) (component (electricFar k) qs i x).
Proof.
  intros I K U. pose proof (cabs2_pos (mwn_ne K)) as K'. set (k' := modifiedWaveNumber k) in *.
  eapply (@potential_far _ _ i k' qs x (fun q s => c_mul (c_add (c_mul (c_opp (c_mul k' (farG k' x (q_point q) s))) (at2 (q_values q) 0 i))
      (c_mul (cdiv (farA k' x (q_point q) (unit3 i) s) k') (at2 (q_values q) 1 0))) (cre (q_weight q)))); [apply reg_e|apply reg_ef|exact I|exact I|exact U| | |].
  - intros q. apply cc_mul; [|apply cc_cst]. apply cc_add; (apply cc_mul; [|apply cc_cst]).
    + apply cc_opp, cc_mul; [apply cc_cst|apply cc_farG].
    + unfold cdiv. apply cc_mul; [apply cc_farA|apply cc_cst].
  - intros q r P N. rewrite term_e by assumption. fold k'. rewrite <- (amp_A _ (unit3 i) U P N), <- (amp_G _ U P N), comp_dot by exact I. unfold cdiv. csolve.
  - intros q. rewrite farG0, farA0, <- comp_dot by exact I. unfold term. unfold kvals. cbn -[c_mul c_add cre cexp loop3 c_opp map comp]. rewrite !loop_dot2. fold k'.
    generalize (cexp (c_mul k' (cre (dot x (q_point q))))). intros [a b].
    assert (E : cdiv (c_mul (c_mul (cre (- comp x i * (1 / (4 * PI)))) k') (a, b)) k' = c_mul (cre (- comp x i)) (c_mul (cre (1 / (4 * PI))) (a, b))).
    { destruct k' as [k1 k2]. unfold cabs2 in K'. cbn in K'. pose proof PI_RGT_0. kfield P. }
    rewrite E. i3 i I; cbn -[c_mul c_add cre c_opp]; reflexivity.
Qed.
Lemma far_m k i qs x : (i < 3)%nat -> dot x x = 1 ->
  limitAtInfinity (fun r => c_mul (amp (modifiedWaveNumber k) r) (component (magneticField k) qs i (vscale r x))) (component (magneticFar k) qs i x).
Proof.
  intros I U. set (k' := modifiedWaveNumber k) in *.
  eapply (@potential_far _ _ i k' qs x (fun q s => c_mul (c_add (c_mul (farA k' x (q_point q) (unit3 (next i)) s) (at2 (q_values q) 0 (next (next i))))
      (c_opp (c_mul (farA k' x (q_point q) (unit3 (next (next i))) s) (at2 (q_values q) 0 (next i))))) (cre (q_weight q)))); [apply reg_m|apply reg_mf|exact I|exact I|exact U| | |].
  - intros q. apply cc_mul; [|apply cc_cst]. apply cc_add; [|apply cc_opp]; (apply cc_mul; [apply cc_farA|apply cc_cst]).
  - intros q r P N. rewrite term_m by assumption. fold k'. rewrite <- !(amp_A _ _ U P N). unfold gradG. rewrite !(@comp_dot _ (next i)), !(@comp_dot _ (next (next i))) by now repeat apply next3. csolve.
  - intros q. rewrite !farA0, <- !comp_dot by now repeat apply next3. unfold term. unfold kvals. cbn -[c_mul c_add cre cexp loop3 c_opp map comp]. rewrite !loop_dot2. fold k'.
    generalize (cexp (c_mul k' (cre (dot x (q_point q))))). intros [a b].
    assert (E : forall j, c_mul (c_mul (cre (- comp x j * (1 / (4 * PI)))) k') (a, b) = c_mul (cre (comp x j)) (c_mul (c_mul (cre (-1 / (4 * PI))) k') (a, b))).
    { intros j. destruct k' as [k1 k2]. pose proof PI_RGT_0. kfield P. }
    rewrite !E. i3 i I; cbn -[c_mul c_add cre c_opp]; reflexivity.
Qed.
