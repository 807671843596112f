(** Vocabulary: normals, conormals, tangential derivatives. *)
From Coq Require Import Reals.
From Verif Require Import Base ComplexR SegModel SegSpec AsmModel SpaceModel VecModel.
Set Implicit Arguments.
Unset Strict Implicit.
Local Open Scope R_scope.

Definition dist (a b : vec) : R := sqrt (dot (vsub a b) (vsub a b)).
(** the corners do not lie on a line *)
Definition proper (T : tri) : Prop := cross (vsub (c1 T) (c0 T)) (vsub (c2 T) (c0 T)) <> vzero.
(** sides 0, 1, 2 of a triangle: ends, in the direction that runs round the triangle, and the
    opposite corner *)
Definition sideFrom (T : tri) (k : nat) : vec := match k with O => c0 T | S O => c2 T | _ => c1 T end.
Definition sideTo (T : tri) (k : nat) : vec := match k with O => c1 T | S O => c0 T | _ => c2 T end.
Definition opposite (T : tri) (k : nat) : vec := match k with O => c2 T | S O => c1 T | _ => c0 T end.
Definition sideLength (T : tri) (k : nat) : R := dist (sideFrom T k) (sideTo T k).
(** reference points on (the line through) side k *)
Definition onSide (k : nat) (q : R * R) : Prop :=
  match k with O => snd q = 0 | S O => fst q = 0 | _ => fst q + snd q = 1 end.
(** nu is the unit vector in the plane of T, orthogonal to side k, pointing away from T *)
Definition outward (T : tri) (k : nat) (nu : vec) : Prop :=
  dot nu nu = 1 /\ dot nu (vsub (sideTo T k) (sideFrom T k)) = 0 /\
  dot nu (cross (vsub (c1 T) (c0 T)) (vsub (c2 T) (c0 T))) = 0 /\
  dot nu (vsub (opposite T k) (sideFrom T k)) < 0.
(** t is the unit vector along side k *)
Definition along (T : tri) (k : nat) (t : vec) : Prop :=
  t = vscale (/ sideLength T k) (vsub (sideTo T k) (sideFrom T k)).

(** n is the unit normal of T for which the corners run anticlockwise *)
Definition unitNormal (T : tri) (n : vec) : Prop :=
  dot n n = 1 /\ dot n (vsub (c1 T) (c0 T)) = 0 /\ dot n (vsub (c2 T) (c0 T)) = 0 /\
  0 < dot n (cross (vsub (c1 T) (c0 T)) (vsub (c2 T) (c0 T))).

(** tangent vector of T with coordinates (a, b) *)
Definition tangent (T : tri) (a b : R) : vec := vadd (vscale a (vsub (c1 T) (c0 T))) (vscale b (vsub (c2 T) (c0 T))).
(** (t1, t2), given by coordinates, is an orthonormal basis of the plane of T *)
Definition orthonormal (T : tri) (t1 t2 : R * R) : Prop :=
  let v1 := tangent T (fst t1) (snd t1) in let v2 := tangent T (fst t2) (snd t2) in
  dot v1 v1 = 1 /\ dot v2 v2 = 1 /\ dot v1 v2 = 0.
Definition rightHanded (T : tri) (t1 t2 : R * R) : Prop :=
  cross (tangent T (fst t1) (snd t1)) (tangent T (fst t2) (snd t2)) = normal T.
(** f has derivative l at q in the direction that has reference coordinates t *)
Definition derivative (f : R * R -> R) (q t : R * R) (l : R) : Prop :=
  derivable_pt_lim (fun s => f (fst q + s * fst t, snd q + s * snd t)) 0 l.
Definition vderivative (f : R * R -> vec) (q t : R * R) (l : vec) : Prop :=
  derivative (fun p => vx (f p)) q t (vx l) /\ derivative (fun p => vy (f p)) q t (vy l) /\
  derivative (fun p => vz (f p)) q t (vz l).
(** the total derivative of f at q *)
Definition hasDerivatives (f : R * R -> R) (q : R * R) (d : nat -> R) : Prop :=
  forall t, derivative f q t (fst t * d 0%nat + snd t * d 1%nat).

(** every element of the grid is a proper triangle *)
Definition properGrid (g : sgrid) (pos : Z -> vec) : Prop :=
  forall e T, In e (g_elts g) -> cornersOf pos e = Some T -> proper T.
(** len i is the length of edge i *)
Definition edgeLengths (g : sgrid) (pos : Z -> vec) (len : Z -> R) : Prop :=
  forall e i a b, In e (g_elts g) -> In (i, [a; b]) (s_facets e) -> len i = dist (pos a) (pos b).
(** side k of element e is edge i *)
Definition sideIs (e : selt) (k : nat) (i : Z) : Prop := nth_error (map fst (s_facets e)) k = Some i.
