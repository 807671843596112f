(** Specification: what the solvers of SciPy promise, and when a discretised operator is stored as a sparse matrix *)
From Coq Require Import List Arith Bool ZArith.
Import ListNotations.
From Verif Require Import Base ArrayModel AsmModel QuadModel MatAlg PyOpModel PyOpSpec PyBopModel PyBlockModel PyBlockSpec PyBbopModel PyGfModel PyGfSpec SlvModel.
Set Implicit Arguments.

Section Spec.
  Variable K : star_ring.
  Variable pinv : mat K -> mat K.
  Notation vec := (mat K).
  Definition column_ (n : nat) (f : nat -> K) : vec := Mat n 1 (fun i _ => f i).
  (** [near y b]: y is close enough to the right hand side b, for instance  || y - b || <= tol || b ||.  Only the entries
      of the vectors count *)
  Variable near : vec -> vec -> Prop.
  Definition entrywise : Prop := forall y y' b b', meq y y' -> meq b b' -> near y b -> near y' b'.
  (** an iteration that ends with code 0 has solved the system *)
  Definition solves A (run : dop K -> vec -> runOf K A) : Prop := forall w m b, realises pinv w m -> m_rows m = m_cols m ->
    m_rows b = m_rows m -> m_cols b = 1 -> r_info (run w b) = 0%Z -> near (mMul m (column_ (m_rows m) (r_x (run w b)))) b.
  Definition bsolves A (run : bop K -> vec -> runOf K A) : Prop := forall w R C m b, brealises pinv w R C m -> list_sum R = list_sum C ->
    m_rows m = list_sum R -> m_cols m = list_sum C ->
    m_rows b = list_sum R -> m_cols b = 1 -> r_info (run w b) = 0%Z -> near (mMul m (column_ (list_sum R) (r_x (run w b)))) b.
  (** scipy.linalg.solve, and lu_solve with the factors of a matrix, give a solution of the right length when they return *)
  Definition directSolve (f : mat K -> vec -> res vec) : Prop := forall m b x, f m b = Ok x ->
    m_rows m = m_cols m -> m_rows b = m_rows m -> m_cols b = 1 -> m_rows x = m_rows m /\ m_cols x = 1 /\ near (mMul m x) b.
End Spec.

Section Sparse.
  Variable K : star_ring.
  (** expressions made of sparse operators only *)
  Fixpoint allSparse (e : expr K) : bool :=
    match e with
    | ESparse _ => true
    | EAdd a b | ESub a b | EMul a b => allSparse a && allSparse b
    | EScale _ a | ENeg a | ETrans a | EAdj a => allSparse a
    | _ => false
    end.
End Sparse.
Arguments column_ {K}.
