From Coq Require Import Reals ZArith List Lia Lra.
Import ListNotations.
From Verif Require Import Base ArrayModel QuadModel QuadSpec QuadProofs.
Set Implicit Arguments.
Local Open Scope R_scope.

Fixpoint rsum (n : nat) (f : nat -> R) : R := match n with O => 0 | S m => rsum m f + f m end.
Lemma rsum_ext n f g : (forall i, (i < n)%nat -> f i = g i) -> rsum n f = rsum n g.
Proof. induction n; cbn; intros H; [reflexivity|]. f_equal; [apply IHn; intros; apply H; lia|apply H; lia]. Qed.
Lemma rsum_add n m f : rsum (n + m) f = rsum n f + rsum m (fun i => f (n + i)%nat).
Proof. induction m; [rewrite Nat.add_0_r; cbn; ring|]. rewrite Nat.add_succ_r. cbn. rewrite IHm. ring. Qed.
Lemma rsum_mul a b f : rsum (a * b) f = rsum a (fun u => rsum b (fun v => f (v + u * b)%nat)).
Proof.
  induction a; [reflexivity|]. cbn [rsum]. rewrite <- IHa. replace (S a * b)%nat with (a * b + b)%nat by lia. rewrite rsum_add. f_equal.
  apply rsum_ext. intros i _. f_equal. lia.
Qed.
Lemma rsum_list A (l : list A) (F : A -> R) (f : nat -> R) : (forall i a, nth_error l i = Some a -> f i = F a) -> rsum (length l) f = quadSum F l.
Proof.
  revert f. induction l as [|a l IH]; intros f H; [reflexivity|]. change (length (a :: l)) with (1 + length l)%nat.
  rewrite rsum_add. cbn [quadSum fold_right]. fold (quadSum F l). rewrite (IH (fun i => f (1 + i)%nat)).
  - cbn. rewrite (H 0%nat a eq_refl). ring.
  - intros i b E. apply H. exact E.
Qed.
Lemma quadSum_ext A (f g : A -> R) l : (forall a, f a = g a) -> quadSum f l = quadSum g l.
Proof. intros H. unfold quadSum. induction l; cbn; [reflexivity|]. now rewrite H, IHl. Qed.
Lemma quadSum_scal A (f : A -> R) c l : quadSum (fun a => f a * c) l = quadSum f l * c.
Proof. unfold quadSum. induction l; cbn; [ring|]. rewrite IHl. ring. Qed.
Lemma quadSum_plus A (f g : A -> R) l : quadSum (fun a => f a + g a) l = quadSum f l + quadSum g l.
Proof. unfold quadSum. induction l; cbn; [ring|]. rewrite IHl. ring. Qed.
Lemma quadSum_prod A (u v : A -> R) l : quadSum (fun b => quadSum (fun a => u a * v b) l) l = quadSum u l * quadSum v l.
Proof.
  rewrite Rmult_comm, <- quadSum_scal. apply quadSum_ext. intros b. rewrite quadSum_scal. ring.
Qed.
Definition regionW (s : shape) (g : sing) (r : nat) (a b : pt) : R :=
  match nth_error (transform s g (paramOf a b)) r with Some z => rw z | None => 0 end.
Definition mom (q : rule) (a b : nat) : R := quadSum (fun e => fst (fst e) ^ a * snd (fst e) ^ b * snd e) q.
Lemma one_region q (W : pt * R -> pt * R -> R) (u v : pt * R -> R) : (forall a b, W a b = u a * v b) ->
  quadSum (fun b => quadSum (fun a => W a b) q) q = quadSum u q * quadSum v q.
Proof. intros H. rewrite <- quadSum_prod. apply quadSum_ext. intros b. apply quadSum_ext. intros a. apply H. Qed.
Lemma mom_comb4 q c1 a1 b1 c2 a2 b2 c3 a3 b3 c4 a4 b4 :
  quadSum (fun e => (c1 * (fst (fst e) ^ a1 * snd (fst e) ^ b1) + c2 * (fst (fst e) ^ a2 * snd (fst e) ^ b2)
    + c3 * (fst (fst e) ^ a3 * snd (fst e) ^ b3) + c4 * (fst (fst e) ^ a4 * snd (fst e) ^ b4)) * snd e) q
  = c1 * mom q a1 b1 + c2 * mom q a2 b2 + c3 * mom q a3 b3 + c4 * mom q a4 b4.
Proof. unfold mom, quadSum. induction q; cbn [fold_right]; [ring|]. rewrite IHq. ring. Qed.
(** every region weight is (a polynomial in the first point) * (a monomial in the second) *)
Lemma region_total s g r q c1 a1 b1 c2 a2 b2 c3 a3 b3 c4 a4 b4 a5 b5 :
  (forall a b, regionW s g r a b = (c1 * (fst a ^ a1 * snd a ^ b1) + c2 * (fst a ^ a2 * snd a ^ b2) + c3 * (fst a ^ a3 * snd a ^ b3) + c4 * (fst a ^ a4 * snd a ^ b4)) * (fst b ^ a5 * snd b ^ b5)) ->
  quadSum (fun b => quadSum (fun a => regionW s g r (fst a) (fst b) * snd a * snd b) q) q
  = (c1 * mom q a1 b1 + c2 * mom q a2 b2 + c3 * mom q a3 b3 + c4 * mom q a4 b4) * mom q a5 b5.
Proof.
  intros H. rewrite <- mom_comb4. unfold mom.
  apply (@one_region q (fun a b => regionW s g r (fst a) (fst b) * snd a * snd b)). intros a b. cbv beta. rewrite H. unfold pt. repeat match goal with |- context [?x ^ ?n] => is_var n; generalize (x ^ n); intros ? end. ring.
Qed.
(** area of the reference element *)
Definition refArea (s : shape) : R := match s with Triangle => / 2 | Quadrangle => 1 end.
Lemma total_weight s g q : exactUpTo 3 q ->
  rsum (numRegions s g) (fun r => quadSum (fun b => quadSum (fun a => regionW s g r (fst a) (fst b) * snd a * snd b) q) q) = refArea s * refArea s.
Proof.
  intros X. 
  assert (M : forall a b, (a <= 3)%nat -> (b <= 3)%nat -> mom q a b = / INR (S a) * / INR (S b)) by (intros; apply X; assumption).
  assert (Z0 : forall a b, (a <= 3)%nat -> (b <= 3)%nat -> 0 * mom q a b = 0) by (intros; ring).
  destruct s, g; cbn [numRegions rsum];
  repeat match goal with |- context [quadSum (fun b => quadSum (fun a => regionW ?s ?g ?r _ _ * _ * _) _) _] =>
    first [
      rewrite (@region_total s g r q 1 3 0 0 0 0 0 0 0 0 0 0 1 0) by (intros [p q0] [p1 q1]; cbn; ring)
    | rewrite (@region_total s g r q 1 3 2 0 0 0 0 0 0 0 0 0 1 0) by (intros [p q0] [p1 q1]; cbn; ring)
    | rewrite (@region_total s g r q 1 3 2 0 0 0 0 0 0 0 0 0 0 0) by (intros [p q0] [p1 q1]; cbn; ring)
    | rewrite (@region_total s g r q 1 3 0 0 0 0 0 0 0 0 0 0 0 0) by (intros [p q0] [p1 q1]; cbn; ring)
    | rewrite (@region_total s g r q 1 2 0 (-1) 3 0 0 0 0 0 0 0 0 0) by (intros [p q0] [p1 q1]; cbn; ring)
    | rewrite (@region_total s g r q 1 2 0 (-1) 3 1 0 0 0 0 0 0 0 0) by (intros [p q0] [p1 q1]; cbn; ring)
    | rewrite (@region_total s g r q 1 1 0 (-1) 2 0 (-1) 2 1 1 3 1 0 0) by (intros [p q0] [p1 q1]; cbn; ring)
    ] end; rewrite ?M by lia; cbn [INR refArea]; field.
Qed.
Lemma output_sum s g q w : length w = (numRegions s g * length q * length q)%nat ->
  (forall r i j, (r < numRegions s g)%nat -> (i < length q)%nat -> (j < length q)%nat -> exists z v, slot s g q r i j z v /\ nth_error w (column (length q) (r, (i, j))) = Some v) ->
  quadSum (fun v => v) w = rsum (numRegions s g) (fun r => quadSum (fun b => quadSum (fun a => regionW s g r (fst a) (fst b) * snd a * snd b) q) q).
Proof.
  intros L H. rewrite <- (@rsum_list _ w (fun v => v) (fun c => nth c w 0)) by (intros i a E; apply nth_error_nth; exact E).
  rewrite L, <- Nat.mul_assoc, rsum_mul. apply rsum_ext. intros r Hr. rewrite rsum_mul.
  rewrite <- (@rsum_list _ q _ (fun j => rsum (length q) (fun i => nth (i + j * length q + r * (length q * length q)) w 0))); [reflexivity|].
  intros j b Ej. apply rsum_list. intros i a Ei.
  assert (Hj : (j < length q)%nat) by (apply nth_error_Some; congruence). assert (Hi : (i < length q)%nat) by (apply nth_error_Some; congruence).
  destruct (H r i j Hr Hi Hj) as (z & v & (a' & b' & E1 & E2 & E3 & E4) & Ew). rewrite Ei in E1. rewrite Ej in E2. injection E1 as <-. injection E2 as <-.
  unfold column in Ew. cbn [fst snd] in Ew. rewrite Nat.mul_assoc. rewrite (nth_error_nth _ _ 0 Ew), E4. unfold regionW. now rewrite E3.
Qed.
