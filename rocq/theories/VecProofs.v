From Coq Require Import Reals Lra Lia Nsatz.
From Verif Require Import Base ComplexR SegModel SegSpec AsmModel SpaceModel VecModel VecSpec.
Set Implicit Arguments.
Unset Strict Implicit.
Local Open Scope R_scope.

Ltac vcbn := cbn [vx vy vz c0 c1 c2 fst snd] in *.
Lemma vec_eq (a b : vec) : vx a = vx b -> vy a = vy b -> vz a = vz b -> a = b.
Proof. destruct a, b; cbn; congruence. Qed.
Lemma dot_comm a b : dot a b = dot b a.
Proof. unfold dot. ring. Qed.
Lemma dot_add_l a b c : dot (vadd a b) c = dot a c + dot b c.
Proof. unfold dot, vadd. vcbn. ring. Qed.
Lemma dot_sub_l a b c : dot (vsub a b) c = dot a c - dot b c.
Proof. unfold dot, vsub. vcbn. ring. Qed.
Lemma dot_scale_l k a c : dot (vscale k a) c = k * dot a c.
Proof. unfold dot, vscale. vcbn. ring. Qed.
Lemma dot_add_r a b c : dot c (vadd a b) = dot c a + dot c b.
Proof. unfold dot, vadd. vcbn. ring. Qed.
Lemma dot_sub_r a b c : dot c (vsub a b) = dot c a - dot c b.
Proof. unfold dot, vsub. vcbn. ring. Qed.
Lemma dot_scale_r k a c : dot c (vscale k a) = k * dot c a.
Proof. unfold dot, vscale. vcbn. ring. Qed.
Lemma dot_zero_l a : dot vzero a = 0.
Proof. unfold dot, vzero. vcbn. ring. Qed.
Lemma dot_nonneg a : 0 <= dot a a.
Proof. unfold dot. assert (A := Rle_0_sqr (vx a)). assert (B := Rle_0_sqr (vy a)). assert (C := Rle_0_sqr (vz a)). unfold Rsqr in *. lra. Qed.
Lemma dot_zero a : dot a a = 0 -> a = vzero.
Proof.
  unfold dot. intros H. assert (A := Rle_0_sqr (vx a)). assert (B := Rle_0_sqr (vy a)). assert (C := Rle_0_sqr (vz a)). unfold Rsqr in *.
  apply vec_eq; cbn; apply Rsqr_0_uniq; unfold Rsqr; lra.
Qed.
Lemma dot_pos a : a <> vzero -> 0 < dot a a.
Proof. intros N. destruct (dot_nonneg a) as [H|H]; [exact H|]. exfalso. apply N, dot_zero. now symmetry. Qed.
Lemma lagrange a b : dot (cross a b) (cross a b) = dot a a * dot b b - dot a b * dot a b.
Proof. unfold dot, cross. vcbn. ring. Qed.
Lemma gram_triple a b c : dot (cross a b) c * dot (cross a b) c =
  dot a a * dot b b * dot c c + 2 * (dot a b * dot b c * dot a c) - dot a a * (dot b c * dot b c) - dot b b * (dot a c * dot a c) - dot c c * (dot a b * dot a b).
Proof. unfold dot, cross. vcbn. ring. Qed.

Section Triangle.
Variable T : tri.
Hypothesis P : proper T.
Notation J0 := (jt T 0).
Notation J1 := (jt T 1).
Lemma gram_cross : gramDet T = dot (cross J0 J1) (cross J0 J1).
Proof. unfold gramDet. now rewrite lagrange. Qed.
Lemma gram_pos : 0 < gramDet T.
Proof. rewrite gram_cross. apply dot_pos. exact P. Qed.
Lemma ie_pos : 0 < integrationElement T.
Proof. apply sqrt_lt_R0, gram_pos. Qed.
Lemma ie_sq : integrationElement T * integrationElement T = gramDet T.
Proof. apply sqrt_sqrt. left. apply gram_pos. Qed.
Lemma normal_eq : normal T = vscale (/ integrationElement T) (cross J0 J1).
Proof.
  unfold normal. fold (cross J0 J1). cbv zeta.
  match goal with |- context [sqrt ?s] => replace s with (gramDet T) end.
  - fold (integrationElement T). apply vec_eq; cbn [vx vy vz vscale]; unfold Rdiv; rewrite Rmult_1_l; apply Rmult_comm.
  - rewrite gram_cross. unfold dot, cross. vcbn. ring.
Qed.
Lemma normal_unit : unitNormal T (normal T).
Proof.
  assert (A := ie_pos). assert (B := ie_sq). assert (G := gram_cross). rewrite normal_eq. unfold unitNormal. fold J0 J1. change (vsub (c1 T) (c0 T)) with J0. change (vsub (c2 T) (c0 T)) with J1.
  rewrite !dot_scale_l, dot_scale_r, <- G. repeat split.
  - rewrite <- B. field. lra.
  - replace (dot (cross J0 J1) J0) with 0 by (unfold dot, cross; vcbn; ring). ring.
  - replace (dot (cross J0 J1) J1) with 0 by (unfold dot, cross; vcbn; ring). ring.
  - rewrite <- B. rewrite <- Rmult_assoc, Rinv_l, Rmult_1_l by lra. exact A.
Qed.
Lemma unitNormal_unique n : unitNormal T n -> n = normal T.
Proof.
  intros (U & A0 & A1 & PS). change (vsub (c1 T) (c0 T)) with J0 in *. change (vsub (c2 T) (c0 T)) with J1 in *.
  assert (E := gram_triple J0 J1 n). rewrite (dot_comm J1 n), (dot_comm J0 n), A0, A1, U in E.
  assert (Q : dot (cross J0 J1) n * dot (cross J0 J1) n = gramDet T) by (rewrite E; unfold gramDet; ring).
  assert (I := ie_pos). assert (S := ie_sq). rewrite dot_comm in PS.
  assert (D : dot (cross J0 J1) n = integrationElement T) by (apply Rsqr_inj; [lra|lra|]; unfold Rsqr; lra).
  assert (N := normal_eq). assert (Z : dot (vsub n (normal T)) (vsub n (normal T)) = 0).
  { rewrite N, !dot_sub_l, !dot_sub_r, !dot_scale_l, !dot_scale_r. rewrite (dot_comm n (cross J0 J1)), D, U, <- gram_cross, <- S. field. lra. }
  apply dot_zero in Z. apply vec_eq; [apply (f_equal vx) in Z|apply (f_equal vy) in Z|apply (f_equal vz) in Z]; unfold vsub, vzero in Z; vcbn; lra.
Qed.

Lemma hdiv_eq b : hdivValue T b = vscale (/ integrationElement T) (vadd (vscale (b 0%nat) J0) (vscale (b 1%nat) J1)).
Proof. apply vec_eq; cbn [hdivValue vscale vadd vx vy vz]; unfold Rdiv; ring. Qed.
(** normal component on a side: the length of the height *)
Lemma height E D nu : dot nu nu = 1 -> dot nu E = 0 -> dot nu (cross E D) = 0 ->
  dot nu D * dot nu D * dot E E = dot (cross E D) (cross E D).
Proof.
  intros U Z C. assert (H := gram_triple E D nu). rewrite (dot_comm (cross E D) nu), C, (dot_comm E nu), (dot_comm D nu), Z, U in H. rewrite lagrange. lra.
Qed.
Lemma side_height k nu : (k < 3)%nat -> outward T k nu ->
  0 < sideLength T k /\ dot nu (vsub (sideFrom T k) (opposite T k)) = integrationElement T / sideLength T k.
Proof.
  intros K (U & Z & C & L). set (E := vsub (sideTo T k) (sideFrom T k)) in *. set (D := vsub (opposite T k) (sideFrom T k)) in *.
  assert (X : dot (cross E D) (cross E D) = gramDet T).
  { rewrite gram_cross. subst E D. destruct k as [|[|[|]]]; [| | |lia]; cbn [sideTo sideFrom opposite jt]; unfold dot, cross, vsub; cbn [vx vy vz]; ring. }
  assert (C' : dot nu (cross E D) = 0).
  { subst E D. destruct k as [|[|[|]]]; [| | |lia]; revert C; unfold dot, cross, vsub; cbn [sideTo sideFrom opposite]; vcbn; intros C; lra. }
  assert (H := height U Z C'). rewrite X in H.
  assert (LE : sideLength T k * sideLength T k = dot E E).
  { unfold sideLength, dist. rewrite sqrt_sqrt by apply dot_nonneg. unfold E, dot, vsub. vcbn. ring. }
  assert (LN : 0 <= sideLength T k) by apply sqrt_pos.
  assert (I := ie_pos). assert (S := ie_sq).
  assert (L0 : 0 < sideLength T k). { destruct LN as [?|Q]; [assumption|]. rewrite <- Q in LE. rewrite <- LE in H. assert (G := gram_pos). lra. }
  split; [exact L0|].
  replace (dot nu (vsub (sideFrom T k) (opposite T k))) with (- dot nu D) by (unfold D, dot, vsub; vcbn; ring).
  apply Rmult_eq_reg_r with (sideLength T k); [|lra]. unfold Rdiv. rewrite Rmult_assoc, Rinv_l, Rmult_1_r by lra.
  assert (Y : (- dot nu D * sideLength T k) * (- dot nu D * sideLength T k) = integrationElement T * integrationElement T) by (rewrite S, <- H, <- LE; ring).
  assert (0 < - dot nu D * sideLength T k) by (apply Rmult_lt_0_compat; lra). apply Rsqr_inj; [lra|lra|]; unfold Rsqr; exact Y.
Qed.
Lemma side_dots k nu : (k < 3)%nat -> outward T k nu -> 0 < sideLength T k /\
  let h := integrationElement T / sideLength T k in
  match k with
  | O => dot J0 nu = 0 /\ dot J1 nu = - h
  | S O => dot J0 nu = - h /\ dot J1 nu = 0
  | _ => dot J0 nu = h /\ dot J1 nu = h
  end.
Proof.
  intros K O. destruct (side_height K O) as (L0 & H). destruct O as (_ & Z & _ & _). split; [exact L0|]. cbv zeta. rewrite <- H.
  destruct k as [|[|[|]]]; [| | |lia]; clear H L0; revert Z; cbn [sideFrom sideTo opposite jt]; unfold dot, vsub; vcbn; intros Z; split; lra.
Qed.
(** normal component of reference function k on side j *)
Lemma rt_flux k j q nu : (k < 3)%nat -> (j < 3)%nat -> onSide j q -> outward T j nu ->
  dot (hdivValue T (rtValue k q)) nu = if Nat.eqb k j then / sideLength T j else 0.
Proof.
  intros K Jj Q O. destruct (side_dots Jj O) as (L0 & H). assert (I := ie_pos).
  rewrite hdiv_eq, dot_scale_l, dot_add_l, !dot_scale_l. destruct q as (x, y).
  destruct j as [|[|[|]]]; [| | |lia]; cbn [onSide fst snd] in Q; destruct H as (-> & ->); destruct k as [|[|[|]]]; try lia; cbn [Nat.eqb rtValue];
  try (subst y); try (subst x); try (replace y with (1 - x) by lra); field; lra.
Qed.
End Triangle.
