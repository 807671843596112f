(** Potentials as sums; Laplace kernels; the differential equations. *)
From Coq Require Import Reals List Lra Lia FunctionalExtensionality.
Import ListNotations.
From Verif Require Import Base ComplexR VecModel VecSpec KernModel KernSpec KernProofs KernProofs2 KernProofs3.
Set Implicit Arguments.
Unset Strict Implicit.
Local Open Scope R_scope.

Fixpoint csumq (f : qpoint -> cpx) (qs : list qpoint) : cpx := match qs with [] => (0, 0) | q :: r => c_add (f q) (csumq f r) end.
Definition kvals (K : kernel) (x : vec) (q : qpoint) : list (list cpx) :=
  match k_eval K (slice GLOBALS x vzero) (slice (k_trial K) (q_point q) (q_normal q)) with Some l => l | None => [] end.
Definition term (op : potOp) (i : nat) (x : vec) (q : qpoint) : cpx :=
  c_mul (nth i (p_integrand op (kvals (p_kernel op) x q) (q_values q)) (0, 0)) (cre (q_weight q)).
Definition regular (op : potOp) : Prop :=
  (forall x y n, k_eval (p_kernel op) (slice GLOBALS x vzero) (slice (k_trial (p_kernel op)) y n) <> None) /\
  (forall kv tv, length (p_integrand op kv tv) = p_dim op).

Lemma accumulate_nth acc v w i n : length acc = n -> length v = n -> (i < n)%nat ->
  nth i (accumulate acc v w) (0, 0) = c_add (nth i acc (0, 0)) (c_mul (nth i v (0, 0)) (cre w)).
Proof.
  intros A V I. unfold accumulate. set (g := fun p : cpx * cpx => c_add (fst p) (c_mul (snd p) (cre w))).
  assert (G0 : g ((0, 0), (0, 0)) = (0, 0)) by (unfold g, c_add, c_mul, cre; cbn; f_equal; ring).
  transitivity (nth i (map g (combine acc v)) (g ((0, 0), (0, 0)))); [now rewrite G0|]. rewrite map_nth, combine_nth; [reflexivity|exact (eq_trans A (eq_sym V))].
Qed.
Lemma accumulate_length acc v w n : length acc = n -> length v = n -> length (accumulate acc v w) = n.
Proof. intros A V. unfold accumulate. rewrite map_length, combine_length. lia. Qed.
Lemma evaluateFrom_sum op x : regular op -> forall qs acc, length acc = p_dim op ->
  exists l, evaluateFrom op x acc qs = Some l /\ length l = p_dim op /\
  forall i, (i < p_dim op)%nat -> nth i l (0, 0) = c_add (nth i acc (0, 0)) (csumq (term op i x) qs).
Proof.
  intros [R L]. induction qs as [|q qs IH]; intros acc A.
  - exists acc. split; [reflexivity|]. split; [exact A|]. intros i I. cbn [csumq]. unfold c_add. cbn [fst snd]. destruct (nth i acc (0, 0)). cbn. f_equal; ring.
  - cbn [evaluateFrom]. destruct (k_eval (p_kernel op) (slice GLOBALS x vzero) (slice (k_trial (p_kernel op)) (q_point q) (q_normal q))) as [kv|] eqn:E; [|now apply R in E].
    destruct (IH (accumulate acc (p_integrand op kv (q_values q)) (q_weight q))) as (l & P & Q & S).
    { apply accumulate_length; [exact A|apply L]. }
    exists l. split; [exact P|]. split; [exact Q|]. intros i I. rewrite S by exact I. rewrite (@accumulate_nth _ _ _ _ (p_dim op)); [|exact A|apply L|exact I].
    cbn [csumq]. unfold term at 2, kvals. rewrite E. unfold c_add. cbn [fst snd]. f_equal; ring.
Qed.
Lemma component_sum op qs x i : regular op -> (i < p_dim op)%nat -> component op qs i x = csumq (term op i x) qs.
Proof.
  intros R I. unfold component, evaluate. destruct (@evaluateFrom_sum op x R qs (repeat (0, 0) (p_dim op))) as (l & -> & _ & S); [apply repeat_length|].
  rewrite S by exact I. rewrite nth_repeat. unfold c_add. cbn. destruct (csumq (term op i x) qs). cbn. f_equal; ring.
Qed.
Lemma evaluate_ok op qs x : regular op -> exists l, evaluate op qs x = Some l /\ length l = p_dim op.
Proof. intros R. destruct (@evaluateFrom_sum op x R qs (repeat (0, 0) (p_dim op))) as (l & E & L & _); [apply repeat_length|]. now exists l. Qed.

Lemma csumq_ext f g qs : (forall q, In q qs -> f q = g q) -> csumq f qs = csumq g qs.
Proof. induction qs as [|q qs IH]; intros H; [reflexivity|]. cbn [csumq]. rewrite H by now left. rewrite IH; [reflexivity|]. intros q' I. apply H. now right. Qed.
Lemma csumq_scale c f qs : c_mul c (csumq f qs) = csumq (fun q => c_mul c (f q)) qs.
Proof. induction qs as [|q qs IH]; cbn [csumq]; [unfold c_mul; cbn; f_equal; ring|]. rewrite <- IH. unfold c_mul, c_add. cbn. f_equal; ring. Qed.
Lemma lap_csumq c (f : qpoint -> vec -> cpx) qs : (forall q, In q qs -> laplacianOn (fun z => z <> q_point q) (f q) (fun z => c_mul c (f q z))) ->
  laplacianOn (offPoints qs) (fun z => csumq (fun q => f q z) qs) (fun z => c_mul c (csumq (fun q => f q z) qs)).
Proof.
  induction qs as [|q qs IH]; intros H.
  - cbn [csumq]. replace (c_mul c (0, 0)) with (0, 0) by (unfold c_mul; cbn; f_equal; ring). apply lap_zero.
  - cbn [csumq]. replace (fun z => c_mul c (c_add (f q z) (csumq (fun q0 => f q0 z) qs))) with (fun z => c_add (c_mul c (f q z)) (c_mul c (csumq (fun q0 => f q0 z) qs))).
    + apply lap_add.
      * eapply lap_sub; [|apply H; now left]. intros z O. apply O. now left.
      * eapply lap_sub; [|apply IH; intros q' I; apply H; now right]. intros z O q' I. apply O. now right.
    + apply functional_extensionality. intros z. unfold c_mul, c_add. cbn. f_equal; ring.
Qed.
Lemma open_off qs : openLines (offPoints qs).
Proof.
  intros x d H. eapply near_imp; [|apply (@open_notin (map q_point qs))].
  - intros z N q I E. apply N. rewrite E. now apply in_map.
  - intros I. apply in_map_iff in I. destruct I as (q & E & I). now apply (H q I).
Qed.
Lemma deriv_csumq (f : qpoint -> vec -> cpx) l x d qs : (forall q, In q qs -> deriv (f q) x d (l q)) -> deriv (fun z => csumq (fun q => f q z) qs) x d (csumq l qs).
Proof.
  induction qs as [|q qs IH]; intros H; cbn [csumq].
  - eapply deriv_eq; [apply deriv_const|reflexivity].
  - apply deriv_add; [apply H; now left|apply IH; intros q' I; apply H; now right].
Qed.

(** ---- Laplace kernels are the modified Helmholtz ones with wave number 0 ---- *)
Lemma ex0G r : gG c0 r = cre (/ (4 * PI * r)).
Proof. unfold gG. rewrite ex_zero. unfold c_mul, cre. cbn. f_equal; ring. Qed.
Lemma ex0A r : gA c0 r = cre (- / (4 * PI * (r * r * r))).
Proof. unfold gA. rewrite ex_zero. unfold c_mul, c_add, cre, c0. cbn. f_equal; ring. Qed.
Lemma ex0B r : gB c0 r = cre (3 * / (4 * PI * (r * r * r * r * r))).
Proof. unfold gB. rewrite ex_zero. unfold c_mul, c_add, cre, c0. cbn. f_equal; ring. Qed.
Ltac refield P := unfold cre, c_mul, c_add, c_opp; cbn [fst snd]; apply injective_projections; cbn [fst snd]; [field; pose proof PI_RGT_0; repeat split; try lra|ring].
Lemma laplaceSlp_val x nx y ny : x <> y -> evalKernel laplaceSlp x nx y ny = Some [[gG c0 (dist x y)]].
Proof.
  intros N. pose proof (dist_pos N) as P. cbn -[cre loop3]. rewrite loop_sq, sqrt_dist, ex0G. do 3 f_equal. refield P.
Qed.
Lemma laplaceDlp_val x nx y ny : x <> y -> evalKernel laplaceDlp x nx y ny = Some [[c_mul (cre (- dot (vsub x y) ny)) (gA c0 (dist x y))]].
Proof.
  intros N. pose proof (dist_pos N) as P. cbn -[c_mul cre loop3]. rewrite loop_sq, loop_dot, sqrt_dist, sq_expr, ex0A, (dist_sym y x).
  replace (dot (vsub y x) ny) with (- dot (vsub x y) ny) by (destruct x, y, ny; unfold dot, vsub; cbn; ring).
  do 3 f_equal. set (r := dist x y) in *. generalize (dot (vsub x y) ny). intros w. refield P.
Qed.
Lemma laplaceAdlp_val x nx y ny : x <> y -> evalKernel laplaceAdlp x nx y ny = Some [[c_mul (cre (dot (vsub x y) nx)) (gA c0 (dist x y))]].
Proof.
  intros N. pose proof (dist_pos N) as P. cbn -[c_mul cre loop3]. rewrite loop_sq, loop_dot, sqrt_dist, sq_expr, ex0A.
  do 3 f_equal. set (r := dist x y) in *. generalize (dot (vsub x y) nx). intros w. refield P.
Qed.
Lemma laplaceHyp_val x nx y ny : x <> y -> evalKernel laplaceHyp x nx y ny =
  Some [[c_add (c_mul (cre (dot nx ny)) (gA c0 (dist x y))) (c_mul (cre (dot (vsub x y) nx * dot (vsub x y) ny)) (gB c0 (dist x y)))]].
Proof.
  intros N. pose proof (dist_pos N) as P. cbn -[c_mul c_add cre loop3]. rewrite loop_sq, !loop_dot, loop_dot2, sqrt_dist, sq_expr, ex0A, ex0B, (dist_sym y x).
  replace (dot (vsub y x) ny) with (- dot (vsub x y) ny) by (destruct x, y, ny; unfold dot, vsub; cbn; ring).
  replace (dot (vsub y x) nx) with (- dot (vsub x y) nx) by (destruct x, y, nx; unfold dot, vsub; cbn; ring).
  do 3 f_equal. set (r := dist x y) in *. generalize (dot (vsub x y) nx) (dot (vsub x y) ny) (dot nx ny). intros u v w. refield P.
Qed.
Lemma laplaceSlpGrad_val x nx y ny : x <> y -> evalKernel laplaceSlpGrad x nx y ny =
  Some [map (fun i => c_mul (cre (comp (vsub x y) i)) (gA c0 (dist x y))) [0; 1; 2]%nat].
Proof.
  intros N. pose proof (dist_pos N) as P. cbn -[c_mul cre loop3 map]. rewrite loop_sq, sqrt_dist, ex0A.
  do 2 f_equal. apply map_ext. intros i. rewrite comp_sub. set (r := dist x y) in *. generalize (comp (vsub x y) i). intros w. refield P.
Qed.
Lemma loop_fac n x y s : s <> 0 -> loop3 (fun i => comp n i * (comp x i - comp y i) * 3 / s) = 3 * dot (vsub x y) n / s.
Proof. intros H. destruct x, y, n. unfold loop3, dot, vsub. cbn. field. exact H. Qed.
Lemma laplaceDlpGrad_val x nx y ny : x <> y -> evalKernel laplaceDlpGrad x nx y ny =
  Some [map (fun i => c_opp (c_add (c_mul (cre (comp ny i)) (gA c0 (dist x y))) (c_mul (cre (dot (vsub x y) ny * comp (vsub x y) i)) (gB c0 (dist x y))))) [0; 1; 2]%nat].
Proof.
  intros N. pose proof (dist_pos N) as P. cbn -[c_mul c_add c_opp cre loop3 map]. rewrite loop_sq, sq_expr. rewrite loop_fac by nra.
  replace (sqrt (dist x y * dist x y)) with (dist x y) by (symmetry; apply sqrt_square; lra). rewrite ex0A, ex0B.
  do 2 f_equal. apply map_ext. intros i. rewrite comp_sub. set (r := dist x y) in *. generalize (comp (vsub x y) i) (dot (vsub x y) ny) (comp ny i). intros u v w. refield P.
Qed.
