From Verif Require Import Base AsmModel OperModel.
Set Implicit Arguments.

(** op(A): the matrix itself, its conjugate, its transpose, its conjugate transpose *)
Definition opRows {K : star_ring} (t : transposition) (A : AsmModel.mat K) : nat :=
  match t with NO_TRANSPOSE | CONJUGATE => m_rows A | _ => m_cols A end.
Definition opCols {K : star_ring} (t : transposition) (A : AsmModel.mat K) : nat :=
  match t with NO_TRANSPOSE | CONJUGATE => m_cols A | _ => m_rows A end.
Definition opAt {K : star_ring} (t : transposition) (A : AsmModel.mat K) (i j : nat) : K :=
  match t with
  | NO_TRANSPOSE => m_at A i j | CONJUGATE => conj (m_at A i j)
  | TRANSPOSE => m_at A j i | CONJUGATE_TRANSPOSE => conj (m_at A j i) end.
Definition opM {K : star_ring} (t : transposition) (A : AsmModel.mat K) : AsmModel.mat K := Mat (opRows t A) (opCols t A) (opAt t A).

(** r = alpha * op(A) * x + beta * y, where y is not looked at if beta = 0 *)
Definition axpby {K : star_ring} (t : transposition) (A : AsmModel.mat K) (x : list K) (y : list (num K)) (alpha beta : K) (r : list (num K)) : Prop :=
  length r = opRows t A /\
  forall i, i < opRows t A ->
    let s := bsum (seq 0 (opCols t A)) (fun k => mul (opAt t A i k) (nth k x zero)) in
    (beta = zero -> nth_error r i = Some (Some (mul alpha s))) /\
    (forall v, nth_error y i = Some (Some v) -> nth_error r i = Some (Some (add (mul alpha s) (mul beta v)))).

(** the BLAS contract of applyBuiltInImpl for the matrix A *)
Definition blasContract {K : star_ring} (impl : builtIn K) (A : AsmModel.mat K) : Prop :=
  forall t x y alpha beta, length x = opCols t A -> length y = opRows t A ->
    exists r, impl t x y alpha beta = Some r /\ axpby t A x y alpha beta r.
(** same sizes and entries *)
Definition sameMat {K : star_ring} (A B : AsmModel.mat K) : Prop :=
  m_rows A = m_rows B /\ m_cols A = m_cols B /\ forall i j, i < m_rows A -> j < m_cols A -> m_at A i j = m_at B i j.
