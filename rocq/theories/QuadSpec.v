From Coq Require Import Reals ZArith List.
Import ListNotations.
From Verif Require Import Base ArrayModel QuadModel.
Set Implicit Arguments.

(** number of vertices two elements have in common *)
Definition commonVertices (test trial : list Z) : nat :=
  length (filter (fun v => if in_dec Z.eq_dec v test then true else false) trial).
(** vertices of a triangle or quadrilateral *)
Definition element (l : list Z) : Prop := NoDup l /\ (length l = 3 \/ length l = 4).
(** local indices i, j of the two elements refer to the same vertex *)
Definition sameVertex (test trial : list Z) (i j : Z) : Prop :=
  (0 <= i)%Z /\ (0 <= j)%Z /\ exists v, nth_error test (Z.to_nat i) = Some v /\ nth_error trial (Z.to_nat j) = Some v.

Local Open Scope R_scope.
(** open unit cube of dimension 4 *)
Definition inCube (p : param) : Prop := 0 < xsi p < 1 /\ 0 < eta1 p < 1 /\ 0 < eta2 p < 1 /\ 0 < eta3 p < 1.
(** interior of the reference element: Hyena's triangle 0 < x1 < x0 < 1, or the unit square *)
Definition interior (s : shape) (q : pt) : Prop :=
  match s with
  | Triangle => 0 < snd q /\ snd q < fst q /\ fst q < 1
  | Quadrangle => 0 < fst q < 1 /\ 0 < snd q < 1
  end.
(** pairs of points off finitely many hyperplanes *)
Definition generic (s : shape) (g : sing) (x y : pt) : Prop :=
  let '(x0, x1) := x in let '(y0, y1) := y in
  match s, g with
  | Triangle, VA => x0 <> y0
  | Triangle, EA => x0 <> y0 /\ x1 - y1 <> x0 - y0 /\ y1 <> y0 - x0
  | Triangle, CO => x0 <> y0 /\ x1 <> y1 /\ x1 - y1 <> x0 - y0
  | Quadrangle, CO => x0 <> y0 /\ x1 <> y1 /\ x0 - y0 <> x1 - y1 /\ x0 - y0 <> y1 - x1
  | Quadrangle, VA => x0 <> x1 /\ x0 <> y0 /\ x0 <> y1 /\ x1 <> y0 /\ x1 <> y1 /\ y0 <> y1
  | Quadrangle, EA => x0 <> y0 /\ x1 <> y1 /\ Rabs (x0 - y0) <> x1 /\ Rabs (x0 - y0) <> y1
  end.
(** partial derivatives *)
Definition getP (i : nat) (p : param) : R := match i with 0 => xsi p | 1 => eta1 p | 2 => eta2 p | _ => eta3 p end%nat.
Definition setP (i : nat) (t : R) (p : param) : param :=
  match i with
  | 0 => Param t (eta1 p) (eta2 p) (eta3 p) | 1 => Param (xsi p) t (eta2 p) (eta3 p)
  | 2 => Param (xsi p) (eta1 p) t (eta3 p) | _ => Param (xsi p) (eta1 p) (eta2 p) t
  end%nat.
(** the four coordinates of the pair of points *)
Definition coord (a : nat) (z : region) : R := match a with 0 => fst (rx z) | 1 => snd (rx z) | 2 => fst (ry z) | _ => snd (ry z) end%nat.
Definition det3 (a b c d e f g h i : R) : R := a * (e * i - f * h) - b * (d * i - f * g) + c * (d * h - e * g).
Definition det4 (J : nat -> nat -> R) : R :=
  let m k c0 c1 c2 := det3 (J 1%nat c0) (J 1%nat c1) (J 1%nat c2) (J 2%nat c0) (J 2%nat c1) (J 2%nat c2) (J 3%nat c0) (J 3%nat c1) (J 3%nat c2) * J 0%nat k in
  m 0%nat 1%nat 2%nat 3%nat - m 1%nat 0%nat 2%nat 3%nat + m 2%nat 0%nat 1%nat 3%nat - m 3%nat 0%nat 1%nat 2%nat.
(** barycentric coordinates on Dune's reference triangle (0,0)-(1,0)-(0,1) *)
Definition bary (k : Z) (q : pt) : R :=
  if (k =? 0)%Z then 1 - fst q - snd q else if (k =? 1)%Z then fst q else snd q.
(** [q'] is [q] with its barycentric coordinates permuted: vertex k of [q] becomes vertex sigma k *)
Definition permuted (sigma : Z -> Z) (q q' : pt) : Prop := forall k, (0 <= k <= 2)%Z -> bary (sigma k) q' = bary k q.
Definition bijective3 (sigma : Z -> Z) : Prop :=
  (forall k, (0 <= k <= 2)%Z -> (0 <= sigma k <= 2)%Z) /\
  forall k l, (0 <= k <= 2)%Z -> (0 <= l <= 2)%Z -> sigma k = sigma l -> k = l.
(** one slot of a singular rule: the point pair and weight prescribed by region r at the rule points i, j *)
Definition slot (s : shape) (g : sing) (q : rule) (r i j : nat) (z : region) (w : R) : Prop :=
  exists a b, nth_error q i = Some a /\ nth_error q j = Some b /\
    nth_error (transform s g (paramOf (fst a) (fst b))) r = Some z /\ w = rw z * snd a * snd b.
(** point of a triangle with corners P 0, P 1, P 2 in space *)
Definition point3 := (R * R * R)%type.
Definition phys (P : Z -> point3) (q : pt) : point3 :=
  let c f := bary 0 q * f (P 0%Z) + bary 1 q * f (P 1%Z) + bary 2 q * f (P 2%Z) in
  (c (fun v => fst (fst v)), c (fun v => snd (fst v)), c snd).
(** interior of Dune's reference triangle *)
Definition interiorD (q : pt) : Prop := forall k, (0 <= k <= 2)%Z -> 0 < bary k q.
(** rule points inside the open unit square *)
Definition interiorRule (q : rule) : Prop := forall a, In a q -> 0 < fst (fst a) < 1 /\ 0 < snd (fst a) < 1.
(** moments of a rule on the unit square *)
Definition quadSum {A} (f : A -> R) (l : list A) : R := fold_right (fun a acc => f a + acc) 0 l.
Definition exactUpTo (d : nat) (q : rule) : Prop := forall a b, (a <= d)%nat -> (b <= d)%nat ->
  quadSum (fun e => fst (fst e) ^ a * snd (fst e) ^ b * snd e) q = / INR (S a) * / INR (S b).
