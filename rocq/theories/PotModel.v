(** Model of /repo/python/bempp/api/assembly/potential_operator.py: potential operators, their sums and multiples, and
    their evaluation.  The discrete operator of a potential is a discrete operator of PyOpModel (the constructors in
    /repo/python/bempp/api/operators/potential/laplace.py:37-40 and the other modules there wrap a matrix assembled in C++ in a
    GeneralNonlocalDiscreteBoundaryOperator).  Grid functions are those of PyGfModel with their caches.
    Evaluation points are arrays of numbers that are equal or not (no NaN).  Not modelled: dtypes, objects of other
    types (70-72 raises NotImplementedError). *)
From Coq Require Import List Arith Bool.
Import ListNotations.
From Verif Require Import Base ArrayModel AsmModel QuadModel MatAlg PyOpModel PyOpSpec PyBopModel PyBlockModel PyGfModel.
Set Implicit Arguments.

(** a two-dimensional array of coordinates *)
Record points T := Pts { pt_rows : nat; pt_cols : nat; pt_at : nat -> nat -> T }.

Section Pot.
  Variable K : star_ring.
  Variable mass : space -> space -> mat K.
  Variable pinv : mat K -> mat K.
  Variable T : Type.
  (** a - b == 0 *)
  Variable teq : T -> T -> bool.

  (** 10-16 *)
  Record pot := Pot { p_op : dop K; p_comps : nat; p_space : space; p_points : points T }.

  (** NumPy: y.reshape(n, -1, order='F') for a vector y; ValueError when n does not divide the size *)
  Definition reshapeF (n : nat) (y : mat K) : res (mat K) :=
    let size := m_rows y * m_cols y in
    if (0 <? n) && (size mod n =? 0) then Ok (Mat n (size / n) (fun c p => m_at y (p * n + c) 0)) else Throws.
  (** 18-31 *)
  Definition evaluate (p : pot) (i : nat) : gcomp K (mat K) :=
    gthen (coefficients mass pinv i) (fun c => gret (bind (dot pinv (p_op p) c) (reshapeF (p_comps p)))).

  (** 37-38: the norm of the difference is zero; arrays are broadcast, ValueError when they do not fit *)
  Definition samePoints (a b : points T) : res bool :=
    match bcast (pt_rows a) (pt_rows b), bcast (pt_cols a) (pt_cols b) with
    | Some r, Some c => Ok (forallb (fun i => forallb (fun j =>
        teq (pt_at a (bidx (pt_rows a) i) (bidx (pt_cols a) j)) (pt_at b (bidx (pt_rows b) i) (bidx (pt_cols b) j))) (seq 0 c)) (seq 0 r))
    | _, _ => Throws
    end.
  (** 33-39; [and] evaluates from left to right *)
  Definition isCompatible (p q : pot) : res bool :=
    if negb (p_comps p =? p_comps q) then Ok false else
    bind (samePoints (p_points p) (p_points q)) (fun b => Ok (b && compat (p_space p) (p_space q))).
  (** 41-49 *)
  Definition potAdd (p q : pot) : res pot :=
    bind (isCompatible p q) (fun b =>
    if negb b then Throws else
    bind (pyAdd (p_op p) (p_op q)) (fun o => Ok (Pot o (p_comps p) (p_space p) (p_points p)))).
  (** 51-61: p * a *)
  Definition potScale (p : pot) (a : K) : pot := Pot (pyScale (p_op p) a) (p_comps p) (p_space p) (p_points p).
  (** a * p: there is no __rmul__, so Python raises TypeError *)
  Definition potScaleLeft (a : K) (p : pot) : res pot := Throws.
  (** 68-70 *)
  Definition potNeg (p : pot) : pot := potScale p (opp one).
  (** 72-74 *)
  Definition potSub (p q : pot) : res pot := potAdd p (potNeg q).
End Pot.
Arguments Pot {K T}.
