(** Values of the kernel functors; derivatives of radial expressions. *)
From Coq Require Import Reals List Lra Lia FunctionalExtensionality.
Import ListNotations.
From Verif Require Import Base ComplexR VecModel VecSpec KernModel KernSpec KernProofs.
Set Implicit Arguments.
Unset Strict Implicit.
Local Open Scope R_scope.

Definition c0 : cpx := (0, 0).
Lemma loop_sq x y : loop3 (fun i => (comp x i - comp y i) * (comp x i - comp y i)) = dot (vsub x y) (vsub x y).
Proof. destruct x, y. unfold loop3, dot, vsub. cbn. ring. Qed.
Lemma loop_dot x y n : loop3 (fun i => (comp x i - comp y i) * comp n i) = dot (vsub x y) n.
Proof. destruct x, y, n. unfold loop3, dot, vsub. cbn. ring. Qed.
Lemma loop_dot2 x n : loop3 (fun i => comp x i * comp n i) = dot x n.
Proof. destruct x, n. unfold loop3, dot. cbn. ring. Qed.
Lemma sqrt_dist x y : sqrt (dot (vsub x y) (vsub x y)) = dist x y.
Proof. reflexivity. Qed.
Lemma comp_sub x y i : comp x i - comp y i = comp (vsub x y) i.
Proof. destruct x, y. destruct i as [|[|i]]; reflexivity. Qed.
Lemma ex_opp k r : cexp (c_opp (c_mul k (cre r))) = ex k r.
Proof. unfold ex. f_equal. destruct k. unfold c_opp, c_mul, cre. cbn. f_equal; ring. Qed.
Lemma ex_scale k r : cexp (cscale (- r) k) = ex k r.
Proof. unfold ex. f_equal. destruct k. unfold c_opp, c_mul, cre, cscale. cbn. f_equal; ring. Qed.
Lemma ex_zero r : ex c0 r = cre 1.
Proof.
  unfold ex, cexp, c0, c_mul, c_opp, cre. cbn.
  replace (- 0 * r - - 0 * 0) with 0 by ring. replace (- 0 * 0 + - 0 * r) with 0 by ring.
  rewrite exp_0, cos_0, sin_0. f_equal; ring.
Qed.
Lemma green_G k x y : green k x y = gG k (dist x y).
Proof. unfold green, gG. rewrite ex_scale. destruct (ex k (dist x y)). unfold cscale, c_mul, cre. cbn. f_equal; ring. Qed.
Lemma sq_expr x y : dot (vsub x y) (vsub x y) = dist x y * dist x y.
Proof. symmetry. apply dist_sq. Qed.
Lemma cdiv_re z r : r <> 0 -> cdiv z (cre r) = cscale (/ r) z.
Proof. intros H. unfold cdiv, cinv, cabs2, cre, c_mul, cscale. cbn. f_equal; field; nra. Qed.
Ltac kfield P := unfold cdiv, cinv, cabs2, c_add, c_mul, cre, c_opp, c_sub, cscale; cbn [fst snd]; apply injective_projections; cbn [fst snd]; field; pose proof PI_RGT_0; repeat split; try lra.

Lemma slp_val k x y : x <> y -> slpValue k x y = gG k (dist x y).
Proof.
  intros N. pose proof (dist_pos N) as P. unfold slpValue, gG. cbv zeta. rewrite loop_sq, sqrt_dist. fold (ex k (dist x y)).
  destruct (ex k (dist x y)) as [p q]. kfield P.
Qed.
Lemma modSlp_val k x nx y ny : x <> y -> evalKernel (modSlp k) x nx y ny = Some [[gG k (dist x y)]].
Proof. intros N. cbn. now rewrite slp_val. Qed.
Lemma modDlp_val k x nx y ny : x <> y -> evalKernel (modDlp k) x nx y ny = Some [[c_mul (cre (- dot (vsub x y) ny)) (gA k (dist x y))]].
Proof.
  intros N. pose proof (dist_pos N) as P. cbn -[c_mul c_add c_opp cre cexp loop3]. rewrite loop_sq, loop_dot, sqrt_dist, sq_expr. rewrite (dist_sym y x). fold (ex k (dist x y)).
  replace (dot (vsub y x) ny) with (- dot (vsub x y) ny) by (destruct x, y, ny; unfold dot, vsub; cbn; ring).
  do 3 f_equal. unfold gA. set (r := dist x y) in *. generalize (dot (vsub x y) ny). intros w. destruct (ex k r) as [p q]. destruct k as [a b]. kfield P.
Qed.
Lemma modAdlp_val k x nx y ny : x <> y -> evalKernel (modAdlp k) x nx y ny = Some [[c_mul (cre (dot (vsub x y) nx)) (gA k (dist x y))]].
Proof.
  intros N. pose proof (dist_pos N) as P. cbn -[c_mul c_add c_opp cre cexp loop3]. rewrite loop_sq, loop_dot, sqrt_dist, sq_expr. fold (ex k (dist x y)).
  do 3 f_equal. unfold gA. set (r := dist x y) in *. generalize (dot (vsub x y) nx). intros w. destruct (ex k r) as [p q]. destruct k as [a b]. kfield P.
Qed.
Lemma modHyp_val k x nx y ny : x <> y -> evalKernel (modHyp k) x nx y ny =
  Some [[c_add (c_mul (cre (dot nx ny)) (gA k (dist x y))) (c_mul (cre (dot (vsub x y) nx * dot (vsub x y) ny)) (gB k (dist x y)))]].
Proof.
  intros N. pose proof (dist_pos N) as P. cbn -[c_mul c_add c_opp cre cexp loop3]. rewrite loop_sq, !loop_dot, loop_dot2, sqrt_dist, sq_expr. rewrite (dist_sym y x), ex_opp.
  replace (dot (vsub y x) ny) with (- dot (vsub x y) ny) by (destruct x, y, ny; unfold dot, vsub; cbn; ring).
  replace (dot (vsub y x) nx) with (- dot (vsub x y) nx) by (destruct x, y, nx; unfold dot, vsub; cbn; ring).
  do 3 f_equal. unfold gA, gB. set (r := dist x y) in *. generalize (dot (vsub x y) nx) (dot (vsub x y) ny) (dot nx ny). intros u v w. destruct (ex k r) as [p q]. destruct k as [a b]. kfield P.
Qed.
Lemma modHypPair_val k x nx y ny : x <> y -> evalKernel (modHypPair k) x nx y ny = Some [[gG k (dist x y)]; [c_mul (c_mul (gG k (dist x y)) k) k]].
Proof. intros N. cbn -[c_mul]. now rewrite slp_val. Qed.
Lemma maxwellSlbo_val k x nx y ny : x <> y -> evalKernel (maxwellSlbo k) x nx y ny = Some [[c_mul (gG k (dist x y)) k]; [cdiv (gG k (dist x y)) k]].
Proof. intros N. cbn -[c_mul cdiv]. now rewrite slp_val. Qed.
Lemma maxwellDl_val k x nx y ny : x <> y -> evalKernel (maxwellDl k) x nx y ny =
  Some [map (fun i => c_mul (cre (comp (vsub x y) i)) (gA k (dist x y))) [0; 1; 2]%nat].
Proof.
  intros N. pose proof (dist_pos N) as P. cbn -[c_mul c_add c_opp cre cexp loop3 cdiv map]. rewrite loop_sq, sqrt_dist, sq_expr. fold (ex k (dist x y)).
  do 2 f_equal. apply map_ext. intros i. rewrite comp_sub, cdiv_re by pnz. unfold gA. set (r := dist x y) in *. generalize (comp (vsub x y) i). intros w. destruct (ex k r) as [p q]. destruct k as [a b]. kfield P; nra.
Qed.
Lemma cabs2_pos k : k <> c0 -> 0 < cabs2 k.
Proof. intros H. destruct k as [a b]. unfold cabs2, c0 in *. cbn. destruct (Req_dec a 0) as [->|]; [|nra]. destruct (Req_dec b 0) as [->|]; [|nra]. now contradict H. Qed.
Lemma maxwellSlpo_val k x nx y ny : x <> y -> k <> c0 -> evalKernel (maxwellSlpo k) x nx y ny =
  Some [[c_mul k (gG k (dist x y))]; map (fun i => cdiv (c_mul (cre (comp (vsub x y) i)) (gA k (dist x y))) k) [0; 1; 2]%nat].
Proof.
  intros N K. pose proof (dist_pos N) as P. pose proof (cabs2_pos K) as Q. cbn -[c_mul c_add c_opp cre cexp loop3 cdiv map]. rewrite loop_sq, sqrt_dist, sq_expr. fold (ex k (dist x y)).
  set (r := dist x y) in *.
  assert (E : cdiv (ex k r) (cre (4 * PI * r)) = gG k r) by (rewrite cdiv_re by pnz; unfold gG; destruct (ex k r) as [p q]; kfield P).
  rewrite E. apply f_equal. apply (f_equal (fun l => [[c_mul k (gG k r)]; l])).
  - apply map_ext. intros i. rewrite comp_sub. unfold gA, gG. generalize (comp (vsub x y) i). intros w. destruct (ex k r) as [p q]. destruct k as [a b]. unfold cabs2 in Q. cbn in Q. kfield P; try nra.
    all: replace (a * (r * r) * (a * (r * r)) + b * (r * r) * (b * (r * r))) with ((a * a + b * b) * (r * (r * (r * r)))) by ring.
    all: apply Rmult_integral_contrapositive_currified; [lra|pnz].
Qed.
