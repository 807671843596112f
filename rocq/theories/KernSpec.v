(** Vocabulary: the Green's function, directional derivatives, the Laplace operator, limits. *)
From Coq Require Import Reals List.
Import ListNotations.
From Verif Require Import Base ComplexR VecModel VecSpec KernModel.
Set Implicit Arguments.
Unset Strict Implicit.
Local Open Scope R_scope.

(** exp(-k |x - y|) / (4 pi |x - y|) *)
Definition green (k : cpx) (x y : vec) : cpx := cscale (/ (4 * PI * dist x y)) (cexp (cscale (- dist x y) k)).
Definition unit3 (i : nat) : vec := match i with O => V 1 0 0 | S O => V 0 1 0 | _ => V 0 0 1 end.
(** l is the derivative of f at x in direction d *)
Definition deriv (f : vec -> cpx) (x d : vec) (l : cpx) : Prop :=
  derivable_pt_lim (fun t => fst (f (vadd x (vscale t d)))) 0 (fst l) /\
  derivable_pt_lim (fun t => snd (f (vadd x (vscale t d)))) 0 (snd l).
(** F is the Laplace operator applied to f, everywhere on U *)
Definition laplacianOn (U : vec -> Prop) (f F : vec -> cpx) : Prop :=
  exists g h : nat -> vec -> cpx, forall x, U x ->
    (forall i, (i < 3)%nat -> deriv f x (unit3 i) (g i x) /\ deriv (g i) x (unit3 i) (h i x)) /\
    F x = c_add (c_add (h 0%nat x) (h 1%nat x)) (h 2%nat x).
(** f r tends to l as r tends to infinity *)
Definition limitAtInfinity (f : R -> cpx) (l : cpx) : Prop :=
  forall eps, 0 < eps -> exists B, forall r, B < r -> Rabs (fst (f r) - fst l) < eps /\ Rabs (snd (f r) - snd l) < eps.
(** entry (row, 0) of kernel number a in the result of a kernel functor *)
Definition entry (o : option (list (list cpx))) (a row : nat) : cpx := nth row (nth a (match o with Some l => l | None => [] end) []) (0, 0).
(** component i of the potential evaluated at x (0 where the evaluation does not succeed) *)
Definition component (op : potOp) (qs : list qpoint) (i : nat) (x : vec) : cpx := nth i (match evaluate op qs x with Some l => l | None => [] end) (0, 0).
(** x lies on no quadrature point *)
Definition offPoints (qs : list qpoint) (x : vec) : Prop := forall q, In q qs -> x <> q_point q.
