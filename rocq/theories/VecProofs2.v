From Coq Require Import Reals Lra Lia Nsatz.
From Verif Require Import Base ComplexR SegModel SegSpec AsmModel SpaceModel VecModel VecSpec VecProofs.
Set Implicit Arguments.
Unset Strict Implicit.
Local Open Scope R_scope.

Lemma right_inverse a b c d e f g h : a*e+b*g = 1 -> a*f+b*h = 0 -> c*e+d*g = 0 -> c*f+d*h = 1 ->
  e*a+f*c = 1 /\ e*b+f*d = 0 /\ g*a+h*c = 0 /\ g*b+h*d = 1.
Proof. intros. repeat split; nsatz. Qed.

Lemma derivative_lin (f g : R * R -> R) q t a b l l' :
  derivative f q t l -> derivative g q t l' -> derivative (fun p => a * f p + b * g p) q t (a * l + b * l').
Proof.
  unfold derivative. intros A B. apply (derivable_pt_lim_plus (fun s => a * f (fst q + s * fst t, snd q + s * snd t)) (fun s => b * g (fst q + s * fst t, snd q + s * snd t))).
  - now apply derivable_pt_lim_scal.
  - now apply derivable_pt_lim_scal.
Qed.
Lemma derivative_ext (f g : R * R -> R) q t l : (forall p, f p = g p) -> derivative f q t l -> derivative g q t l.
Proof. intros E H. unfold derivative in *. intros eps Pe. destruct (H eps Pe) as (del & D). exists del. intros h N B. rewrite <- !E. now apply D. Qed.
(** a linear combination of two fixed vectors *)
Lemma vderivative_lin (u v : vec) (f g : R * R -> R) q t l l' (F : R * R -> vec) :
  (forall p, F p = vadd (vscale (f p) u) (vscale (g p) v)) -> derivative f q t l -> derivative g q t l' ->
  vderivative F q t (vadd (vscale l u) (vscale l' v)).
Proof.
  intros E A B. repeat split; cbn [vadd vscale vx vy vz].
  - apply derivative_ext with (f := fun p => vx u * f p + vx v * g p); [intro p; rewrite E; cbn; ring|]. rewrite (Rmult_comm l), (Rmult_comm l'). now apply derivative_lin.
  - apply derivative_ext with (f := fun p => vy u * f p + vy v * g p); [intro p; rewrite E; cbn; ring|]. rewrite (Rmult_comm l), (Rmult_comm l'). now apply derivative_lin.
  - apply derivative_ext with (f := fun p => vz u * f p + vz v * g p); [intro p; rewrite E; cbn; ring|]. rewrite (Rmult_comm l), (Rmult_comm l'). now apply derivative_lin.
Qed.

Section Triangle.
Variable T : tri.
Hypothesis P : proper T.
Notation J0 := (jt T 0).
Notation J1 := (jt T 1).
Lemma tangent_eq a b : tangent T a b = vadd (vscale a J0) (vscale b J1).
Proof. reflexivity. Qed.
(** the dual basis *)
Lemma jit_dual : dot (jit T 0) J0 = 1 /\ dot (jit T 0) J1 = 0 /\ dot (jit T 1) J0 = 0 /\ dot (jit T 1) J1 = 1.
Proof.
  assert (G := gram_pos P). unfold jit. rewrite !dot_scale_l, !dot_sub_l, !dot_scale_l. rewrite !(dot_comm J1 J0). unfold gramDet in *.
  repeat split; field; lra.
Qed.
Lemma jit_normal a : dot (jit T a) (normal T) = 0.
Proof.
  destruct (normal_unit P) as (_ & A & B & _). change (vsub (c1 T) (c0 T)) with J0 in A. change (vsub (c2 T) (c0 T)) with J1 in B.
  rewrite dot_comm. destruct a; unfold jit; rewrite dot_scale_r, dot_sub_r, !dot_scale_r, A, B; ring.
Qed.
Lemma hcurl_eq b : hcurlValue T b = vadd (vscale (b 0%nat) (jit T 0)) (vscale (b 1%nat) (jit T 1)).
Proof. apply vec_eq; cbn [hcurlValue vscale vadd vx vy vz]; ring. Qed.
Lemma grad_eq d : surfaceGrad T d = vadd (vscale (d 0%nat) (jit T 0)) (vscale (d 1%nat) (jit T 1)).
Proof. apply vec_eq; cbn [surfaceGrad vscale vadd vx vy vz]; ring. Qed.
Lemma grad_tangent d a b : dot (surfaceGrad T d) (tangent T a b) = a * d 0%nat + b * d 1%nat.
Proof.
  destruct jit_dual as (A & B & C & D). rewrite grad_eq, tangent_eq, dot_add_l, !dot_scale_l, !dot_add_r, !dot_scale_r, A, B, C, D. ring.
Qed.
Lemma grad_normal d : dot (surfaceGrad T d) (normal T) = 0.
Proof. rewrite grad_eq, dot_add_l, !dot_scale_l, !jit_normal. ring. Qed.

(** rotation by the normal *)
Lemma bac a b c : cross (cross a b) c = vsub (vscale (dot a c) b) (vscale (dot b c) a).
Proof. apply vec_eq; unfold dot, cross, vsub, vscale; cbn [vx vy vz]; ring. Qed.
Lemma cross_scale_l k a b : cross (vscale k a) b = vscale k (cross a b).
Proof. apply vec_eq; unfold cross, vscale; cbn [vx vy vz]; ring. Qed.
Lemma cross_scale_r k a b : cross a (vscale k b) = vscale k (cross a b).
Proof. apply vec_eq; unfold cross, vscale; cbn [vx vy vz]; ring. Qed.
Lemma cross_add_r a b c : cross a (vadd b c) = vadd (cross a b) (cross a c).
Proof. apply vec_eq; unfold cross, vadd; cbn [vx vy vz]; ring. Qed.
Lemma normal_J0 : cross (normal T) J0 = vscale (integrationElement T) (jit T 1).
Proof.
  assert (I := ie_pos P). assert (S := ie_sq P). assert (G := gram_pos P). rewrite (normal_eq T), cross_scale_l, bac. unfold jit. rewrite (dot_comm J1 J0), <- S.
  apply vec_eq; cbn [vscale vsub vx vy vz]; field; lra.
Qed.
Lemma normal_J1 : cross (normal T) J1 = vscale (- integrationElement T) (jit T 0).
Proof.
  assert (I := ie_pos P). assert (S := ie_sq P). assert (G := gram_pos P). rewrite (normal_eq T), cross_scale_l, bac. unfold jit. rewrite <- S.
  apply vec_eq; cbn [vscale vsub vx vy vz]; field; lra.
Qed.
Lemma rotate b : hcurlValue T (fun c => match c with O => - b 1%nat | _ => b 0%nat end) = cross (normal T) (hdivValue T b).
Proof.
  assert (I := ie_pos P). rewrite hcurl_eq, (hdiv_eq T b), cross_scale_r, cross_add_r, !cross_scale_r, normal_J0, normal_J1.
  apply vec_eq; cbn [vscale vadd vx vy vz]; field; lra.
Qed.
Lemma nc_rotates_rt k q : hcurlValue T (ncValue k q) = cross (normal T) (hdivValue T (rtValue k q)).
Proof. rewrite <- rotate. reflexivity. Qed.

(** orthonormal bases are inverse to the metric *)
Lemma basis_inverse t1 t2 : orthonormal T t1 t2 ->
  let g00 := dot J0 J0 in let g01 := dot J0 J1 in let g11 := dot J1 J1 in
  let m00 := fst t1 * fst t1 + fst t2 * fst t2 in let m01 := fst t1 * snd t1 + fst t2 * snd t2 in let m11 := snd t1 * snd t1 + snd t2 * snd t2 in
  m00 * g00 + m01 * g01 = 1 /\ m00 * g01 + m01 * g11 = 0 /\ m01 * g00 + m11 * g01 = 0 /\ m01 * g01 + m11 * g11 = 1.
Proof.
  intros (A & B & C). destruct t1 as (a, b), t2 as (c, d). cbn [fst snd] in *. cbv zeta. rewrite !tangent_eq in *.
  rewrite !dot_add_l, !dot_scale_l, !dot_add_r, !dot_scale_r in A, B, C. rewrite (dot_comm J1 J0) in A, B, C.
  generalize dependent (dot J0 J0). generalize dependent (dot J0 J1). generalize dependent (dot J1 J1). intros g11 g01 g00 A B C.
  destruct (@right_inverse (a*g00+b*g01) (a*g01+b*g11) (c*g00+d*g01) (c*g01+d*g11) a c b d) as (R1 & R2 & R3 & R4); try nra.
Qed.
Lemma div_core r q d t1 t2 : orthonormal T t1 t2 -> (forall c, (c < 2)%nat -> hasDerivatives (fun p => r p c) q (d c)) ->
  exists L1 L2, vderivative (fun p => hdivValue T (r p)) q t1 L1 /\ vderivative (fun p => hdivValue T (r p)) q t2 L2 /\
    surfaceDiv T d = dot L1 (tangent T (fst t1) (snd t1)) + dot L2 (tangent T (fst t2) (snd t2)).
Proof.
  intros O H. assert (I := ie_pos P). set (i := / integrationElement T).
  assert (D : forall t, vderivative (fun p => hdivValue T (r p)) q t
     (vadd (vscale (fst t * d 0%nat 0%nat + snd t * d 0%nat 1%nat) (vscale i J0)) (vscale (fst t * d 1%nat 0%nat + snd t * d 1%nat 1%nat) (vscale i J1)))).
  { intros t. apply vderivative_lin with (f := fun p => r p 0%nat) (g := fun p => r p 1%nat); [|apply H; lia|apply H; lia].
    intros p. rewrite (hdiv_eq T (r p)). fold i. apply vec_eq; cbn [vscale vadd vx vy vz]; ring. }
  do 2 eexists. split; [apply D|]. split; [apply D|].
  rewrite !tangent_eq, !dot_add_l, !dot_scale_l, !dot_add_r, !dot_scale_r, (dot_comm J1 J0).
  destruct (basis_inverse O) as (A & B & C & E). unfold surfaceDiv, Rdiv. fold i. rewrite Rmult_comm.
  revert A B C E. generalize (dot J0 J0) (dot J0 J1) (dot J1 J1). intros g00 g01 g11 A B C E.
  destruct t1 as (a, b), t2 as (a', b'). cbn [fst snd] in *.
  transitivity (i * (d 0%nat 0%nat * ((a*a+a'*a')*g00+(a*b+a'*b')*g01) + d 0%nat 1%nat * ((a*b+a'*b')*g00+(b*b+b'*b')*g01)
     + d 1%nat 0%nat * ((a*a+a'*a')*g01+(a*b+a'*b')*g11) + d 1%nat 1%nat * ((a*b+a'*b')*g01+(b*b+b'*b')*g11))); [|ring].
  rewrite A, B, C, E. ring.
Qed.

(** curl *)
Lemma jit_cross : cross (jit T 0) (jit T 1) = vscale (/ integrationElement T) (normal T).
Proof.
  assert (G := gram_pos P). assert (I := ie_pos P). assert (S := ie_sq P). rewrite (normal_eq T).
  assert (Y : cross (jit T 0) (jit T 1) = vscale (/ gramDet T * / gramDet T) (vscale (gramDet T) (cross J0 J1))).
  { unfold jit. rewrite cross_scale_l, cross_scale_r. generalize (/ gramDet T). intros k. unfold gramDet. generalize J0 J1. intros u v.
    apply vec_eq; unfold cross, vsub, vscale, dot; cbn [vx vy vz]; ring. }
  rewrite Y. rewrite <- S. apply vec_eq; cbn [vscale vx vy vz]; field; lra.
Qed.
Lemma hcurlCurl_eq d : hcurlCurl T d = (d 1%nat 0%nat - d 0%nat 1%nat) / integrationElement T.
Proof.
  assert (I := ie_pos P). transitivity ((d 1%nat 0%nat - d 0%nat 1%nat) * dot (cross (jit T 0) (jit T 1)) (normal T)).
  - unfold hcurlCurl, dot, cross. cbn [vx vy vz]. ring.
  - rewrite jit_cross, dot_scale_l. destruct (normal_unit P) as (U & _). rewrite U. unfold Rdiv. ring.
Qed.
Lemma curl_core r q d t1 t2 : orthonormal T t1 t2 -> rightHanded T t1 t2 -> (forall c, (c < 2)%nat -> hasDerivatives (fun p => r p c) q (d c)) ->
  exists L1 L2, vderivative (fun p => hcurlValue T (r p)) q t1 L1 /\ vderivative (fun p => hcurlValue T (r p)) q t2 L2 /\
    hcurlCurl T d = dot L1 (tangent T (fst t2) (snd t2)) - dot L2 (tangent T (fst t1) (snd t1)).
Proof.
  intros O RH H. assert (I := ie_pos P).
  assert (D : forall t, vderivative (fun p => hcurlValue T (r p)) q t
     (vadd (vscale (fst t * d 0%nat 0%nat + snd t * d 0%nat 1%nat) (jit T 0)) (vscale (fst t * d 1%nat 0%nat + snd t * d 1%nat 1%nat) (jit T 1)))).
  { intros t. apply vderivative_lin with (f := fun p => r p 0%nat) (g := fun p => r p 1%nat); [|apply H; lia|apply H; lia].
    intros p. apply hcurl_eq. }
  do 2 eexists. split; [apply D|]. split; [apply D|].
  destruct jit_dual as (X0 & X1 & X2 & X3).
  rewrite !tangent_eq, !dot_add_l, !dot_scale_l, !dot_add_r, !dot_scale_r, X0, X1, X2, X3.
  rewrite hcurlCurl_eq.
  unfold rightHanded in RH. destruct t1 as (a, b), t2 as (a', b'). cbn [fst snd] in *.
  assert (E : (a * b' - b * a') * integrationElement T = 1).
  { assert (N := f_equal (fun v => dot v (normal T)) RH). cbn beta in N. destruct (normal_unit P) as (U & _). rewrite U in N. rewrite <- N.
    rewrite (normal_eq T), dot_scale_r. replace (cross (tangent T a b) (tangent T a' b')) with (vscale (a*b'-b*a') (cross J0 J1)).
    - rewrite dot_scale_l, <- gram_cross, <- (ie_sq P). field. lra.
    - rewrite !tangent_eq. apply vec_eq; unfold cross, vscale, vadd; cbn [vx vy vz]; ring. }
  apply Rmult_eq_reg_r with (integrationElement T); [|lra]. unfold Rdiv. rewrite Rmult_assoc, Rinv_l, Rmult_1_r by lra.
  transitivity ((d 1%nat 0%nat - d 0%nat 1%nat) * ((a * b' - b * a') * integrationElement T)); [rewrite E; ring|ring].
Qed.
End Triangle.
