From Coq Require Import Reals ZArith List Lra Lia Psatz.
Import ListNotations.
From Verif Require Import Base ArrayModel QuadModel QuadSpec.
Set Implicit Arguments.
Local Open Scope R_scope.

(** the part of (element x element) covered by each region: linear inequalities *)
Definition zone (s : shape) (g : sing) (r : nat) (x y : pt) : Prop :=
  let '(x0, x1) := x in let '(y0, y1) := y in
  match s, g, r with
  | Triangle, CO, 0%nat => y0 < x0 /\ x0 - y0 < x1 - y1
  | Triangle, CO, 1%nat => x0 < y0 /\ y0 - x0 < y1 - x1
  | Triangle, CO, 2%nat => y0 < x0 /\ 0 < x1 - y1 < x0 - y0
  | Triangle, CO, 3%nat => x0 < y0 /\ 0 < y1 - x1 < y0 - x0
  | Triangle, CO, 4%nat => x0 < y0 /\ y1 < x1
  | Triangle, CO, 5%nat => y0 < x0 /\ x1 < y1
  | Triangle, EA, 0%nat => y0 < x0 /\ x1 < y1 + x0 - y0
  | Triangle, EA, 1%nat => y0 < x0 /\ y1 + x0 - y0 < x1
  | Triangle, EA, 2%nat => x0 < y0 /\ y1 < y0 - x0
  | Triangle, EA, 3%nat => x0 < y0 /\ x1 + y0 - x0 < y1
  | Triangle, EA, 4%nat => x0 < y0 /\ y0 - x0 < y1 < x1 + y0 - x0
  | Triangle, VA, 0%nat => y0 < x0
  | Triangle, VA, 1%nat => x0 < y0
  | Quadrangle, CO, 0%nat => 0 < y1 - x1 < y0 - x0
  | Quadrangle, CO, 1%nat => 0 < y0 - x0 < y1 - x1
  | Quadrangle, CO, 2%nat => 0 < x1 - y1 < y0 - x0
  | Quadrangle, CO, 3%nat => 0 < y0 - x0 < x1 - y1
  | Quadrangle, CO, 4%nat => 0 < y1 - x1 < x0 - y0
  | Quadrangle, CO, 5%nat => 0 < x0 - y0 < y1 - x1
  | Quadrangle, CO, 6%nat => 0 < x1 - y1 < x0 - y0
  | Quadrangle, CO, 7%nat => 0 < x0 - y0 < x1 - y1
  | Quadrangle, EA, 0%nat => x1 < x0 - y0 /\ y1 < x0 - y0
  | Quadrangle, EA, 1%nat => x1 < y0 - x0 /\ y1 < y0 - x0
  | Quadrangle, EA, 2%nat => 0 < x0 - y0 < y1 /\ x1 < y1
  | Quadrangle, EA, 3%nat => 0 < x0 - y0 < x1 /\ y1 < x1
  | Quadrangle, EA, 4%nat => 0 < y0 - x0 < y1 /\ x1 < y1
  | Quadrangle, EA, 5%nat => 0 < y0 - x0 < x1 /\ y1 < x1
  | Quadrangle, VA, 0%nat => x1 < x0 /\ y0 < x0 /\ y1 < x0
  | Quadrangle, VA, 1%nat => x0 < x1 /\ y0 < x1 /\ y1 < x1
  | Quadrangle, VA, 2%nat => x0 < y0 /\ x1 < y0 /\ y1 < y0
  | Quadrangle, VA, 3%nat => x0 < y1 /\ x1 < y1 /\ y0 < y1
  | _, _, _ => False
  end.
(** (xsi, eta1, eta1*eta2, eta1*eta2*eta3), each already multiplied by xsi except the first *)
Definition chain (xi a b c : R) : param := Param xi (a / xi) (b / a) (c / b).
Definition octant (a1 a2 a3 a4 : R) : param :=
  Param (a3 - a1) ((a4 - a2) / (a3 - a1)) (a2 / (1 - (a4 - a2))) (a1 / (1 - (a3 - a1))).
Definition edgeA (hi lo a2 a1 : R) : param := Param (hi - lo) (a1 / (hi - lo)) (a2 / (hi - lo)) (lo / (1 - (hi - lo))).
Definition edgeB (hi lo xi a2 : R) : param := Param xi ((hi - lo) / xi) (a2 / xi) (lo / (1 - (hi - lo))).
Definition inv (s : shape) (g : sing) (r : nat) (x y : pt) : param :=
  let '(x0, x1) := x in let '(y0, y1) := y in
  match s, g, r with
  | Triangle, CO, 0%nat => chain x0 (x0 - y1) (x1 - y1) (x0 - y0)
  | Triangle, CO, 1%nat => chain y0 (y0 - x1) (y1 - x1) (y0 - x0)
  | Triangle, CO, 2%nat => chain x0 (y1 + x0 - y0) (x0 - y0) (x1 - y1)
  | Triangle, CO, 3%nat => chain y0 (x1 + y0 - x0) (y0 - x0) (y1 - x1)
  | Triangle, CO, 4%nat => chain y0 (x1 + y0 - x0) (x1 - y1 + y0 - x0) (y0 - x0)
  | Triangle, CO, _ => chain x0 (y1 + x0 - y0) (y1 - x1 + x0 - y0) (x0 - y0)
  | Triangle, EA, 0%nat => Param x0 ((y1 + x0 - y0) / x0) ((x0 - y0) / (y1 + x0 - y0)) (x1 / (y1 + x0 - y0))
  | Triangle, EA, 1%nat => chain x0 x1 (y1 + x0 - y0) (x0 - y0)
  | Triangle, EA, 2%nat => chain y0 (x1 + y0 - x0) (y0 - x0) y1
  | Triangle, EA, 3%nat => chain y0 y1 (x1 + y0 - x0) (y0 - x0)
  | Triangle, EA, _ => chain y0 (x1 + y0 - x0) y1 (y0 - x0)
  | Triangle, VA, 0%nat => Param x0 (x1 / x0) (y0 / x0) (y1 / y0)
  | Triangle, VA, _ => Param y0 (y1 / y0) (x0 / y0) (x1 / x0)
  | Quadrangle, CO, 0%nat => octant x0 x1 y0 y1
  | Quadrangle, CO, 1%nat => octant x1 x0 y1 y0
  | Quadrangle, CO, 2%nat => octant x0 y1 y0 x1
  | Quadrangle, CO, 3%nat => octant y1 x0 x1 y0
  | Quadrangle, CO, 4%nat => octant y0 x1 x0 y1
  | Quadrangle, CO, 5%nat => octant x1 y0 y1 x0
  | Quadrangle, CO, 6%nat => octant y0 y1 x0 x1
  | Quadrangle, CO, _ => octant y1 y0 x1 x0
  | Quadrangle, EA, 0%nat => edgeA x0 y0 x1 y1
  | Quadrangle, EA, 1%nat => edgeA y0 x0 x1 y1
  | Quadrangle, EA, 2%nat => edgeB x0 y0 y1 x1
  | Quadrangle, EA, 3%nat => edgeB x0 y0 x1 y1
  | Quadrangle, EA, 4%nat => edgeB y0 x0 y1 x1
  | Quadrangle, EA, _ => edgeB y0 x0 x1 y1
  | Quadrangle, VA, 0%nat => Param x0 (x1 / x0) (y0 / x0) (y1 / x0)
  | Quadrangle, VA, 1%nat => Param x1 (x0 / x1) (y0 / x1) (y1 / x1)
  | Quadrangle, VA, 2%nat => Param y0 (x0 / y0) (x1 / y0) (y1 / y0)
  | Quadrangle, VA, _ => Param y1 (x0 / y1) (x1 / y1) (y0 / y1)
  end.

Lemma zones_disjoint s g r r' x y : interior s x -> interior s y -> zone s g r x y -> zone s g r' x y -> r = r'.
Proof.
  destruct x as [x0 x1], y as [y0 y1].
  destruct s, g; do 8 (destruct r as [|r]; [do 8 (destruct r' as [|r']; [cbn; first [reflexivity | intros; exfalso; lra]|]); cbn; tauto|]); cbn; tauto.
Qed.
Ltac try_zone k := exists k; cbn [zone]; lra.
Ltac which := first [try_zone 0%nat | try_zone 1%nat | try_zone 2%nat | try_zone 3%nat | try_zone 4%nat | try_zone 5%nat | try_zone 6%nat | try_zone 7%nat].
Lemma zones_cover s g x y : interior s x -> interior s y -> generic s g x y -> exists r, zone s g r x y.
Proof.
  destruct x as [x0 x1], y as [y0 y1]. destruct s, g; cbn [interior generic fst snd]; intros Hx Hy Hg.
  - destruct (Rlt_le_dec x0 y0); which.
  - destruct Hg as (G1 & G2 & G3). destruct (Rlt_le_dec x0 y0); destruct (Rlt_le_dec (x1 - y1) (x0 - y0)); destruct (Rlt_le_dec y1 (y0 - x0)); which.
  - destruct Hg as (G1 & G2 & G3). destruct (Rlt_le_dec x0 y0); destruct (Rlt_le_dec x1 y1); destruct (Rlt_le_dec (x1 - y1) (x0 - y0)); which.
  - destruct Hg as (G1 & G2 & G3 & G4 & G5 & G6).
    destruct (Rlt_le_dec x0 y0); destruct (Rlt_le_dec x1 y1); destruct (Rlt_le_dec x0 x1); destruct (Rlt_le_dec y0 y1); destruct (Rlt_le_dec x0 y1); destruct (Rlt_le_dec x1 y0); which.
  - destruct Hg as (G1 & G2 & G3 & G4). unfold Rabs in *. destruct (Rcase_abs (x0 - y0)); destruct (Rlt_le_dec x1 y1); 
     destruct (Rlt_le_dec (x0 - y0) x1); destruct (Rlt_le_dec (y0 - x0) x1); destruct (Rlt_le_dec (x0 - y0) y1); destruct (Rlt_le_dec (y0 - x0) y1); which.
  - destruct Hg as (G1 & G2 & G3 & G4). destruct (Rlt_le_dec x0 y0); destruct (Rlt_le_dec x1 y1); destruct (Rlt_le_dec (x0 - y0) (x1 - y1)); destruct (Rlt_le_dec (x0 - y0) (y1 - x1)); which.
Qed.
Lemma div_unit a b : 0 < a -> a < b -> 0 < a / b < 1.
Proof.
  intros Ha Hb. split; [apply Rdiv_lt_0_compat; lra|].
  apply Rmult_lt_reg_r with b; [lra|]. unfold Rdiv. rewrite Rmult_assoc, Rinv_l by lra. lra.
Qed.
Lemma inv_cube s g r x y : interior s x -> interior s y -> zone s g r x y -> inCube (inv s g r x y).
Proof.
  destruct x as [x0 x1], y as [y0 y1].
  destruct s, g; do 8 (destruct r as [|r]; [cbn [zone interior fst snd]; intros Hx Hy Hz; 
    first [exfalso; exact Hz | unfold inCube; cbn [inv]; unfold chain, octant, edgeA, edgeB; cbn [xsi eta1 eta2 eta3];
    split; [lra|split; [|split]]; apply div_unit; lra]|]); cbn; tauto.
Qed.
Lemma inv_right s g r x y : interior s x -> interior s y -> zone s g r x y ->
  exists w, nth_error (transform s g (inv s g r x y)) r = Some (Region x y w).
Proof.
  destruct x as [x0 x1], y as [y0 y1].
  destruct s, g; do 8 (destruct r as [|r]; [cbn [zone interior fst snd]; intros Hx Hy Hz; 
    first [exfalso; exact Hz | cbn [inv]; unfold chain, octant, edgeA, edgeB; cbn [transform nth_error];
    eexists; apply (f_equal Some); f_equal; f_equal; first [reflexivity|field; lra]]|]); cbn; tauto.
Qed.
Lemma param_eq a b c d a' b' c' d' : a = a' -> b = b' -> c = c' -> d = d' -> Param a b c d = Param a' b' c' d'.
Proof. now intros -> -> -> ->. Qed.
Lemma image s g r p z : nth_error (transform s g p) r = Some z -> inCube p ->
  interior s (rx z) /\ interior s (ry z) /\ zone s g r (rx z) (ry z) /\ p = inv s g r (rx z) (ry z).
Proof.
  destruct p as [x e1 e2 e3]. intros Hz (Hx & H1 & H2 & H3); cbn [xsi eta1 eta2 eta3] in *.
  assert (A : 0 < e1 * e2 < e1) by nra. assert (B : 0 < e1 * e2 * e3 < e1 * e2) by nra.
  assert (A1 : 0 < x * e1 < x) by nra. assert (A2 : 0 < x * (e1 * e2) < x * e1) by nra. assert (A3 : 0 < x * (e1 * e2 * e3) < x * (e1 * e2)) by nra.
  assert (A4 : 0 < e1 * e3 < e1) by nra. assert (A5 : 0 < x * (e1 * e3) < x * e1) by nra.
  assert (B2 : 0 < x * e2 < x) by nra. assert (B3 : 0 < x * e3 < x) by nra. assert (B4 : 0 < x * (e2 * e3) < x * e2) by nra.
  assert (C1 : 0 < (1 - x) * e3 < 1 - x) by nra. assert (C2 : 0 < (1 - x * e1) * e2 < 1 - x * e1) by nra. assert (C3 : 0 < (1 - x * e1) * e3 < 1 - x * e1) by nra.
  destruct s, g; cbn [transform] in Hz;
  do 8 (destruct r as [|r]; [first [discriminate Hz | injection Hz as <-; cbn [rx ry interior zone fst snd];
     split; [repeat split; lra|split; [repeat split; lra|split; [repeat split; lra|]]];
     cbn [inv]; unfold chain, octant, edgeA, edgeB; apply param_eq; field; repeat split; lra
     ]|]); try discriminate Hz; destruct r; discriminate Hz.
Qed.
