From Coq Require Import Reals ZArith List Lra Lia.
Import ListNotations.
From Verif Require Import Base ArrayModel QuadModel QuadSpec.
Set Implicit Arguments.
Local Open Scope R_scope.

(** ---- Jacobians ---- *)
Lemma affine_derive f a b x : (forall t, f t = a + b * t) -> derivable_pt_lim f x b.
Proof.
  intros H eps He. exists (mkposreal 1 Rlt_0_1). intros h Hh _. rewrite !H.
  replace ((a + b * (x + h) - (a + b * x)) / h - b) with 0 by (field; exact Hh). rewrite Rabs_R0. exact He.
Qed.
Lemma Rabs_sign w d : 0 <= w -> d = w \/ d = - w -> w = Rabs d.
Proof. intros H [-> | ->]; [now rewrite Rabs_pos_eq|]. now rewrite Rabs_Ropp, Rabs_pos_eq. Qed.

(** coordinate [a] of region [r], as a function of the parameter point *)
Definition coordAt (s : shape) (g : sing) (r a : nat) (p : param) : R :=
  match nth_error (transform s g p) r with Some z => coord a z | None => 0 end.
Definition jac (s : shape) (g : sing) (r : nat) (p : param) (a i : nat) : R := coordAt s g r a (setP i 1 p) - coordAt s g r a (setP i 0 p).
Ltac regions r H := repeat (destruct r as [|r]; [try discriminate H|]); try (exfalso; cbn in H; discriminate H).
Lemma coordAt_affine s g r a i p t : coordAt s g r a (setP i t p) = coordAt s g r a (setP i 0 p) + jac s g r p a i * t.
Proof.
  unfold jac, coordAt. destruct p as [x e1 e2 e3].
  destruct i as [|[|[|i]]]; destruct a as [|[|[|a]]]; destruct s, g; cbn [setP xsi eta1 eta2 eta3 transform];
  do 8 (destruct r as [|r]; [cbn [nth_error coord rx ry fst snd]; ring|]); cbn [nth_error]; try ring; destruct r; cbn [nth_error]; ring.
Qed.
Lemma jac_partial s g r p a i : derivable_pt_lim (fun t => coordAt s g r a (setP i t p)) (getP i p) (jac s g r p a i).
Proof. apply affine_derive with (a := coordAt s g r a (setP i 0 p)). intros t. apply coordAt_affine. Qed.
Lemma jac_det s g r p z : nth_error (transform s g p) r = Some z -> inCube p -> rw z = Rabs (det4 (jac s g r p)).
Proof.
  destruct p as [x e1 e2 e3]. intros Hz (Hx & H1 & H2 & H3); cbn [xsi eta1 eta2 eta3] in *.
  assert (P1 : 0 < 1 - x * e1) by nra.
  destruct s, g; cbn [transform] in Hz;
  do 8 (destruct r as [|r]; [first [discriminate Hz | injection Hz as <-; apply Rabs_sign;
     [cbn [rw]; repeat apply Rmult_le_pos; lra|
      unfold det4, det3, jac, coordAt; cbn [transform setP xsi eta1 eta2 eta3 nth_error coord rx ry rw fst snd];
      first [left; ring | right; ring]]]|]); try discriminate Hz; destruct r; discriminate Hz.
Qed.
