(** Complex-valued derivatives, radial functions. *)
From Coq Require Import Reals List Lra Lia FunctionalExtensionality.
Import ListNotations.
From Verif Require Import Base ComplexR VecModel VecSpec KernModel KernSpec.
Set Implicit Arguments.
Unset Strict Implicit.
Local Open Scope R_scope.

Definition cd (f : R -> cpx) (t : R) (l : cpx) : Prop :=
  derivable_pt_lim (fun t => fst (f t)) t (fst l) /\ derivable_pt_lim (fun t => snd (f t)) t (snd l).

Lemma dl_eq f t l l' : derivable_pt_lim f t l -> l = l' -> derivable_pt_lim f t l'.
Proof. now intros H <-. Qed.
Lemma cd_eq f t l l' : cd f t l -> l = l' -> cd f t l'.
Proof. now intros H <-. Qed.
Lemma cd_ext f g t l : (forall s, f s = g s) -> cd f t l -> cd g t l.
Proof. intros H. assert (f = g) as -> by (apply functional_extensionality, H). auto. Qed.
Lemma cd_const c t : cd (fun _ => c) t (cre 0).
Proof. split; apply derivable_pt_lim_const. Qed.
Lemma cd_re f t l : derivable_pt_lim f t l -> cd (fun s => cre (f s)) t (cre l).
Proof. intros H. split; cbn; [exact H|apply derivable_pt_lim_const]. Qed.
Lemma cd_add f g t l m : cd f t l -> cd g t m -> cd (fun s => c_add (f s) (g s)) t (c_add l m).
Proof. intros [A B] [C D]. split; cbn; [apply (derivable_pt_lim_plus _ _ _ _ _ A C)|apply (derivable_pt_lim_plus _ _ _ _ _ B D)]. Qed.
Lemma cd_opp f t l : cd f t l -> cd (fun s => c_opp (f s)) t (c_opp l).
Proof. intros [A B]. split; cbn; [apply (derivable_pt_lim_opp _ _ _ A)|apply (derivable_pt_lim_opp _ _ _ B)]. Qed.
Lemma cd_mul f g t l m : cd f t l -> cd g t m -> cd (fun s => c_mul (f s) (g s)) t (c_add (c_mul l (g t)) (c_mul (f t) m)).
Proof.
  intros [A B] [C D]. split; cbn [fst snd c_mul c_add].
  - eapply dl_eq.
    + exact (derivable_pt_lim_minus _ _ _ _ _ (derivable_pt_lim_mult _ _ _ _ _ A C) (derivable_pt_lim_mult _ _ _ _ _ B D)).
    + cbn; ring.
  - eapply dl_eq.
    + exact (derivable_pt_lim_plus _ _ _ _ _ (derivable_pt_lim_mult _ _ _ _ _ A D) (derivable_pt_lim_mult _ _ _ _ _ B C)).
    + cbn; ring.
Qed.
Lemma cd_comp (f : R -> cpx) (u : R -> R) t l m : derivable_pt_lim u t m -> cd f (u t) l -> cd (fun s => f (u s)) t (c_mul (cre m) l).
Proof.
  intros U [A B]. split; cbn [fst snd c_mul cre].
  - eapply dl_eq; [exact (derivable_pt_lim_comp u (fun s => fst (f s)) t m (fst l) U A)|cbn; ring].
  - eapply dl_eq; [exact (derivable_pt_lim_comp u (fun s => snd (f s)) t m (snd l) U B)|cbn; ring].
Qed.
Lemma cd_exp g t l : cd g t l -> cd (fun s => cexp (g s)) t (c_mul (cexp (g t)) l).
Proof.
  intros [A B].
  pose proof (derivable_pt_lim_comp (fun s => fst (g s)) exp t _ _ A (derivable_pt_lim_exp _)) as E.
  pose proof (derivable_pt_lim_comp (fun s => snd (g s)) cos t _ _ B (derivable_pt_lim_cos _)) as C.
  pose proof (derivable_pt_lim_comp (fun s => snd (g s)) sin t _ _ B (derivable_pt_lim_sin _)) as S.
  split; cbn [fst snd cexp c_mul].
  - eapply dl_eq; [exact (derivable_pt_lim_mult _ _ _ _ _ E C)|]. cbn; unfold Ranalysis1.comp; cbn; ring.
  - eapply dl_eq; [exact (derivable_pt_lim_mult _ _ _ _ _ E S)|]. cbn; unfold Ranalysis1.comp; cbn; ring.
Qed.

(** ---- radial functions ---- *)
Definition ex (k : cpx) (r : R) : cpx := cexp (c_mul (c_opp k) (cre r)).
Definition gG k r : cpx := c_mul (cre (/ (4 * PI * r))) (ex k r).
Definition gA k r : cpx := c_mul (c_mul (cre (- / (4 * PI * (r * r * r)))) (c_add (cre 1) (c_mul k (cre r)))) (ex k r).
Definition gB k r : cpx := c_mul (c_mul (cre (/ (4 * PI * (r * r * r * r * r)))) (c_add (c_add (cre 3) (c_mul (cre 3) (c_mul k (cre r)))) (c_mul (c_mul k (cre r)) (c_mul k (cre r))))) (ex k r).
Definition gC k r : cpx := c_mul (c_mul (cre (- / (4 * PI * (r * r * r * r * r * r * r))))
   (c_add (c_add (c_add (cre 15) (c_mul (cre 15) (c_mul k (cre r)))) (c_mul (cre 6) (c_mul (c_mul k (cre r)) (c_mul k (cre r))))) (c_mul (c_mul k (cre r)) (c_mul (c_mul k (cre r)) (c_mul k (cre r)))))) (ex k r).

Lemma cd_kr k r : cd (fun s => c_mul k (cre s)) r k.
Proof. eapply cd_eq; [exact (cd_mul (cd_const k r) (cd_re (derivable_pt_lim_id r)))|]. unfold id. destruct k as [a b]. unfold c_add, c_mul, cre. cbn. f_equal; ring. Qed.
Lemma cd_ex k r : cd (ex k) r (c_mul (ex k r) (c_opp k)).
Proof. unfold ex. apply cd_exp. exact (cd_kr (c_opp k) r). Qed.
Lemma dl_inv (f : R -> R) r l : derivable_pt_lim f r l -> f r <> 0 -> derivable_pt_lim (fun s => / f s) r (- l / (f r * f r)).
Proof.
  intros D N.
  pose proof (derivable_pt_lim_div (fct_cte 1) f r 0 l (derivable_pt_lim_const 1 _) D N) as Q.
  assert (E : (fct_cte 1 / f)%F = (fun s => / f s)) by (apply functional_extensionality; intros x; unfold div_fct, fct_cte, Rdiv; ring).
  rewrite E in Q. eapply dl_eq; [exact Q|]. unfold fct_cte, Rsqr. field. exact N.
Qed.
Lemma dl_mul f g r l m : derivable_pt_lim f r l -> derivable_pt_lim g r m -> derivable_pt_lim (fun s => f s * g s) r (l * g r + f r * m).
Proof. intros A B. exact (derivable_pt_lim_mult _ _ _ _ _ A B). Qed.
Lemma dl_id r : derivable_pt_lim (fun s => s) r 1.
Proof. exact (derivable_pt_lim_id r). Qed.
Lemma dl_cst c r : derivable_pt_lim (fun _ => c) r 0.
Proof. exact (derivable_pt_lim_const c r). Qed.
Lemma dl_opp f r l : derivable_pt_lim f r l -> derivable_pt_lim (fun s => - f s) r (- l).
Proof. intros A. exact (derivable_pt_lim_opp _ _ _ A). Qed.
Lemma dl_add f g r l m : derivable_pt_lim f r l -> derivable_pt_lim g r m -> derivable_pt_lim (fun s => f s + g s) r (l + m).
Proof. intros A B. exact (derivable_pt_lim_plus _ _ _ _ _ A B). Qed.

Ltac pnz := pose proof PI_RGT_0; cbn beta; repeat match goal with |- _ * _ <> 0 => apply Rmult_integral_contrapositive_currified end; lra.
Ltac cfield := unfold gG, gA, gB, gC, c_add, c_mul, cre, c_opp, c_sub, cscale; cbn [fst snd]; apply injective_projections; cbn [fst snd]; field; pose proof PI_RGT_0; repeat split; try lra.

Lemma cd_G k r : 0 < r -> cd (gG k) r (c_mul (cre r) (gA k r)).
Proof.
  intros H. unfold gG.
  eapply cd_eq.
  - refine (cd_mul (cd_re (f := fun s => / (4 * PI * s)) _) (cd_ex k r)).
    apply dl_inv; [|pnz]. apply dl_mul; [apply dl_cst|apply dl_id].
  - destruct k as [a b]. destruct (ex (a, b) r) as [p q] eqn:E. unfold gA. rewrite E. cfield.
Qed.
Lemma cd_A k r : 0 < r -> cd (gA k) r (c_mul (cre r) (gB k r)).
Proof.
  intros H. unfold gA.
  eapply cd_eq.
  - refine (cd_mul (cd_mul (cd_re (f := fun s => - / (4 * PI * (s * s * s))) _) (cd_add (cd_const (cre 1) r) (cd_kr k r))) (cd_ex k r)).
    apply dl_opp. apply dl_inv; [|pnz]. apply dl_mul; [apply dl_cst|]. apply dl_mul; [apply dl_mul; apply dl_id|apply dl_id].
  - destruct k as [a b]. destruct (ex (a, b) r) as [p q] eqn:E. unfold gB. rewrite E. cfield.
Qed.
Lemma cd_B k r : 0 < r -> cd (gB k) r (c_mul (cre r) (gC k r)).
Proof.
  intros H. unfold gB.
  eapply cd_eq.
  - refine (cd_mul (cd_mul (cd_re (f := fun s => / (4 * PI * (s * s * s * s * s))) _)
       (cd_add (cd_add (cd_const (cre 3) r) (cd_mul (cd_const (cre 3) r) (cd_kr k r))) (cd_mul (cd_kr k r) (cd_kr k r)))) (cd_ex k r)).
    apply dl_inv; [|pnz]. apply dl_mul; [apply dl_cst|]. repeat (apply dl_mul; [|apply dl_id]). apply dl_id.
  - destruct k as [a b]. destruct (ex (a, b) r) as [p q] eqn:E. unfold gC. rewrite E. cfield.
Qed.
(** the radial equation *)
Lemma radial1 k r : 0 < r -> c_add (c_mul (cre (r * r)) (gB k r)) (c_mul (cre 3) (gA k r)) = c_mul (c_mul k k) (gG k r).
Proof. intros H. destruct k as [a b]. unfold gB, gA, gG. destruct (ex (a, b) r) as [p q]. cfield. Qed.
Lemma radial2 k r : 0 < r -> c_add (c_mul (cre (r * r)) (gC k r)) (c_mul (cre 5) (gB k r)) = c_mul (c_mul k k) (gA k r).
Proof. intros H. destruct k as [a b]. unfold gB, gA, gC. destruct (ex (a, b) r) as [p q]. cfield. Qed.

(** ---- in space ---- *)
Lemma dot_pos d : d <> vzero -> 0 < dot d d.
Proof.
  intros H. destruct d as [a b c]. unfold dot, vzero in *. cbn in *.
  destruct (Req_dec a 0) as [->|]; [|nra]. destruct (Req_dec b 0) as [->|]; [|nra]. destruct (Req_dec c 0) as [->|]; [|nra]. now contradict H.
Qed.
Lemma vsub_ne x y : x <> y -> vsub x y <> vzero.
Proof. intros H E. apply H. destruct x, y. unfold vsub, vzero in E. cbn in E. injection E as A B C. f_equal; lra. Qed.
Lemma dist_pos x y : x <> y -> 0 < dist x y.
Proof. intros H. unfold dist. apply sqrt_lt_R0, dot_pos, vsub_ne, H. Qed.
Lemma dist_sq x y : dist x y * dist x y = dot (vsub x y) (vsub x y).
Proof. unfold dist. apply sqrt_sqrt. destruct (vsub x y). unfold dot. cbn. nra. Qed.
Lemma dist_sym x y : dist x y = dist y x.
Proof. unfold dist. f_equal. destruct x, y. unfold dot, vsub. cbn. ring. Qed.
Definition at_ (x d : vec) (t : R) : vec := vadd x (vscale t d).
Lemma at_0 x d : at_ x d 0 = x.
Proof. destruct x, d. unfold at_, vadd, vscale. cbn. f_equal; ring. Qed.
Lemma deriv_cd f x d l : deriv f x d l <-> cd (fun t => f (at_ x d t)) 0 l.
Proof. reflexivity. Qed.
Lemma dl_dist x y d : x <> y -> derivable_pt_lim (fun t => dist (at_ x d t) y) 0 (dot (vsub x y) d / dist x y).
Proof.
  intros N. pose proof (dist_pos N) as P.
  set (q := fun t : R => dot (vsub (at_ x d t) y) (vsub (at_ x d t) y)).
  assert (Q0 : q 0 = dot (vsub x y) (vsub x y)) by (unfold q; now rewrite at_0).
  assert (Q : derivable_pt_lim q 0 (2 * dot (vsub x y) d)).
  { set (w := fun t : R => dot (vsub x y) (vsub x y) + t * (2 * dot (vsub x y) d) + t * t * dot d d).
    assert (E : q = w) by (apply functional_extensionality; intros t; unfold q, w, at_; destruct x, y, d; unfold dot, vsub, vadd, vscale; cbn; ring).
    rewrite E. unfold w. eapply dl_eq.
    - apply dl_add; [apply dl_add; [apply dl_cst|apply dl_mul; [apply dl_id|apply dl_cst]]|apply dl_mul; [apply dl_mul; apply dl_id|apply dl_cst]].
    - cbn beta. ring. }
  eapply dl_eq; [refine (derivable_pt_lim_comp q sqrt 0 _ (/ (2 * sqrt (q 0))) Q _)|].
  - apply derivable_pt_lim_sqrt. rewrite Q0. apply dot_pos, vsub_ne, N.
  - rewrite Q0. fold (dist x y). unfold Rdiv. field. lra.
Qed.
Lemma deriv_radial phi psi x y d : x <> y -> (forall r, 0 < r -> cd phi r (c_mul (cre r) (psi r))) ->
  deriv (fun z => phi (dist z y)) x d (c_mul (cre (dot (vsub x y) d)) (psi (dist x y))).
Proof.
  intros N H. apply deriv_cd. pose proof (dist_pos N) as P.
  eapply cd_eq; [refine (cd_comp (f := phi) (u := fun t => dist (at_ x d t) y) (dl_dist d N) _)|].
  - rewrite at_0. apply H, P.
  - destruct (psi (dist x y)) as [p q]. unfold c_mul, cre. cbn. f_equal; field; lra.
Qed.
Lemma deriv_coord i x y d : deriv (fun z => cre (comp (vsub z y) i)) x d (cre (comp d i)).
Proof.
  apply deriv_cd. apply cd_re.
  set (w := fun t : R => comp (vsub x y) i + t * comp d i).
  assert (E : (fun t => comp (vsub (at_ x d t) y) i) = w) by (apply functional_extensionality; intros t; unfold w, at_; destruct x, y, d; destruct i as [|[|i]]; unfold vsub, vadd, vscale; cbn; ring).
  rewrite E. unfold w. eapply dl_eq; [apply dl_add; [apply dl_cst|apply dl_mul; [apply dl_id|apply dl_cst]]|]. cbn beta. ring.
Qed.
Lemma deriv_dot n x y d : deriv (fun z => cre (dot (vsub z y) n)) x d (cre (dot d n)).
Proof.
  apply deriv_cd. apply cd_re.
  set (w := fun t : R => dot (vsub x y) n + t * dot d n).
  assert (E : (fun t => dot (vsub (at_ x d t) y) n) = w) by (apply functional_extensionality; intros t; unfold w, at_; destruct x, y, d, n; unfold dot, vsub, vadd, vscale; cbn; ring).
  rewrite E. unfold w. eapply dl_eq; [apply dl_add; [apply dl_cst|apply dl_mul; [apply dl_id|apply dl_cst]]|]. cbn beta. ring.
Qed.
Lemma deriv_mul f g x d l m : deriv f x d l -> deriv g x d m -> deriv (fun z => c_mul (f z) (g z)) x d (c_add (c_mul l (g x)) (c_mul (f x) m)).
Proof. intros A B. apply deriv_cd. pose proof (cd_mul (proj1 (deriv_cd _ _ _ _) A) (proj1 (deriv_cd _ _ _ _) B)) as C. cbn beta in C. now rewrite !at_0 in C. Qed.
Lemma deriv_add f g x d l m : deriv f x d l -> deriv g x d m -> deriv (fun z => c_add (f z) (g z)) x d (c_add l m).
Proof. intros A B. apply deriv_cd. exact (cd_add (proj1 (deriv_cd _ _ _ _) A) (proj1 (deriv_cd _ _ _ _) B)). Qed.
Lemma deriv_opp f x d l : deriv f x d l -> deriv (fun z => c_opp (f z)) x d (c_opp l).
Proof. intros A. apply deriv_cd. exact (cd_opp (proj1 (deriv_cd _ _ _ _) A)). Qed.
Lemma deriv_const c x d : deriv (fun _ => c) x d (cre 0).
Proof. apply deriv_cd. apply cd_const. Qed.
Lemma deriv_ext f g x d l : (forall z, f z = g z) -> deriv f x d l -> deriv g x d l.
Proof. intros H. assert (f = g) as -> by (apply functional_extensionality, H). auto. Qed.
Lemma deriv_eq f x d l l' : deriv f x d l -> l = l' -> deriv f x d l'.
Proof. now intros H <-. Qed.
