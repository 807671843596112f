(** Polynomials in one variable. *)
From Coq Require Import Reals List.
Import ListNotations.
Local Open Scope R_scope.

(** the polynomial with coefficients a, b, c, ...: a + b x + c x^2 + ...; its degree is below the number of coefficients *)
Fixpoint peval (p : list R) (x : R) : R := match p with [] => 0 | a :: r => a + x * peval r x end.
(** d is the derivative of the polynomial p at x *)
Definition slope (p : list R) (x d : R) : Prop := derivable_pt_lim (peval p) x d.
(** the affine map from [-1, 1] to [a, b] *)
Definition toInterval (a b t : R) : R := a + (b - a) * (t + 1) / 2.
