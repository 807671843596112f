(** C166-C169: Chebyshev interpolation and differentiation. *)
From Coq Require Import Reals List Arith Lia Lra.
Import ListNotations.
From Verif Require Import ChebModel ChebSpec ChebProofs.
Set Implicit Arguments.
Unset Strict Implicit.
Local Open Scope R_scope.

(** C166: for any values at the nodes there is a polynomial of degree at most the order that takes them, and the interpolation
    polynomial has its values at all points, the nodes among them; polynomials of such degree are reproduced *)
Theorem C166_interpolation : forall order w, (0 < order)%nat ->
  exists p, length p = S order /\ (forall j, (j <= order)%nat -> peval p (node order j) = w j) /\
    forall points, evaluateInterpolationPolynomial order w points = map (peval p) points.
Proof.
  intros n w N. destruct (interpolant_exists n w) as (p & L & H). exists p. split; [exact L|]. split; [exact H|]. intros xs. apply map_ext. intros x.
  rewrite (@evaluate_ext n w (fun j => peval p (node n j))) by (intros; symmetry; now apply H). apply evaluate_poly; lia.
Qed.
Theorem C166_reproduces : forall order p points, (0 < order)%nat -> (length p <= S order)%nat ->
  evaluateInterpolationPolynomial order (fun j => peval p (node order j)) points = map (peval p) points.
Proof. intros n p xs N L. apply map_ext. intros x. now apply evaluate_poly. Qed.
Theorem C166_nodes : forall order, (0 < order)%nat -> node order 0 = 1 /\ node order order = -1 /\ (forall j, -1 <= node order j <= 1) /\
  forall i j, (i <= order)%nat -> (j <= order)%nat -> node order i = node order j -> i = j.
Proof.
  intros n N. assert (Nn : INR n <> 0) by (apply not_0_INR; lia). unfold node at 1 2 3 4. split; [|split; [|split]].
  - cbn [INR]. replace (PI * 0 / INR n) with 0 by (field; exact Nn). apply cos_0.
  - replace (PI * INR n / INR n) with PI by (field; exact Nn). apply cos_PI.
  - intros j. apply COS_bound.
  - intros i j. apply node_inj.
Qed.

(** C167: derivativeWeights gives the derivatives at the nodes of the polynomial of degree at most the order that has the given
    values at the nodes *)
Theorem C167_derivative : forall order w p i, (0 < order)%nat -> (length p <= S order)%nat -> (forall j, (j <= order)%nat -> peval p (node order j) = w j) -> (i <= order)%nat ->
  slope p (node order i) (derivativeWeights order w i).
Proof. intros n w p i N L H Li. rewrite (@derivative_ext n w (fun j => peval p (node n j))) by (intros; symmetry; now apply H). now apply derivative_poly. Qed.

(** C168: the interpolation matrix takes the values of a polynomial at the nodes of [-1, 1] to its values at the nodes of the first
    child [-1, -1 + 2 ratio], followed by those at the nodes of the second child [1 - 2 ratio, 1] *)
Theorem C168_children : forall order ratio p j, (0 < order)%nat -> (length p <= S order)%nat -> (j <= order)%nat ->
  rsum (S order) (fun l => childInterpolationMatrix order ratio j l * peval p (node order l)) = peval p (toInterval (-1) (-1 + 2 * ratio) (node order j)) /\
  rsum (S order) (fun l => childInterpolationMatrix order ratio (S order + j) l * peval p (node order l)) = peval p (toInterval (1 - 2 * ratio) 1 (node order j)).
Proof.
  intros n ratio p j N L Lj.
  assert (E : forall i, (i < 2 * terms n)%nat -> rsum (S n) (fun l => childInterpolationMatrix n ratio i l * peval p (node n l)) = peval p (childPoint n ratio i)).
  { intros i Li. rewrite <- (@evaluate_poly n p (childPoint n ratio i) N L), <- evaluate_units by exact N. apply rsum_ext. intros l _. f_equal.
    unfold childInterpolationMatrix, evaluateInterpolationPolynomial. rewrite map_map, nth_indep with (d' := (fun x => evaluateAt n (fun l0 => if (l0 =? l)%nat then 1 else 0) (childPoint n ratio x)) 0%nat) by (now rewrite map_length, seq_length).
    rewrite (@map_nth nat R (fun x => evaluateAt n (fun l0 => if (l0 =? l)%nat then 1 else 0) (childPoint n ratio x))), seq_nth by exact Li. reflexivity. }
  assert (T : (terms n - 1 = n)%nat) by (unfold terms; lia).
  split; rewrite E by (unfold terms; lia); f_equal; unfold childPoint, toInterval, node; rewrite T; unfold terms.
  - destruct (Nat.ltb_spec j (S n)); [|lia]. field; apply not_0_INR; lia.
  - destruct (Nat.ltb_spec (S n + j) (S n)); [lia|]. replace (S n + j - S n)%nat with j by lia. field; apply not_0_INR; lia.
Qed.

(** C169: derivativeWeights3d differentiates in the chosen direction: the entry for (i, j, k) is the derivative at the node of that
    direction of the polynomial that has the values along the line through (i, j, k) in that direction, whatever the memory of the
    result contained *)
Definition at3 (order : nat) (i j k : nat) : nat := (i * S order * S order + j * S order + k)%nat.
Theorem C169_derivative3d : forall order w memory p i j k, (0 < order)%nat -> (length p <= S order)%nat -> (i <= order)%nat -> (j <= order)%nat -> (k <= order)%nat ->
  ((forall l, (l <= order)%nat -> peval p (node order l) = w (at3 order l j k)) -> slope p (node order i) (derivativeWeights3d order w 0 memory (at3 order i j k))) /\
  ((forall l, (l <= order)%nat -> peval p (node order l) = w (at3 order i l k)) -> slope p (node order j) (derivativeWeights3d order w 1 memory (at3 order i j k))) /\
  ((forall l, (l <= order)%nat -> peval p (node order l) = w (at3 order i j l)) -> slope p (node order k) (derivativeWeights3d order w 2 memory (at3 order i j k))).
Proof.
  intros n w memory p i j k N L Li Lj Lk. unfold at3. destruct (@derivative3d n w memory i j k Li Lj Lk) as (E2 & E1 & E0). rewrite E0, E1, E2.
  split; [|split]; intros H; now apply C167_derivative.
Qed.

(** ---- the parabola 1 + 2 x + 3 x^2 on three nodes ---- *)
Example parabola : forall x, evaluateInterpolationPolynomial 2 (fun j => peval [1; 2; 3] (node 2 j)) [x] = [1 + x * (2 + x * (3 + x * 0))].
Proof. intros x. rewrite C166_reproduces; [reflexivity|lia|cbn; lia]. Qed.
Example parabola_slope : slope [1; 2; 3] (node 2 0) (derivativeWeights 2 (fun j => peval [1; 2; 3] (node 2 j)) 0) /\ slope [1; 2; 3] 1 8.
Proof.
  split; [apply C167_derivative; cbn; auto|]. replace 8 with (peval (pquot [1; 2; 3] 1) 1) by (cbn; ring). apply pquot_slope.
Qed.

Print Assumptions C166_interpolation.
Print Assumptions C166_reproduces.
Print Assumptions C166_nodes.
Print Assumptions C167_derivative.
Print Assumptions C168_children.
Print Assumptions C169_derivative3d.
