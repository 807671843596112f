(** Specification: expressions of discrete operators and the matrices they stand for *)
From Coq Require Import List Arith Bool.
Import ListNotations.
From Verif Require Import Base ArrayModel AsmModel QuadModel MatAlg PyOpModel.
Set Implicit Arguments.

Section Spec.
  Variable K : star_ring.
  Notation matrix := (mat K).
  Inductive expr :=
  | ENonlocal (a : matrix) | EDense (a : matrix) | ESparse (a : matrix) | EInverse (a : matrix)
  | EZero (rows cols : nat) | ERankOne (column row : list K)
  | EAdd (e1 e2 : expr) | ESub (e1 e2 : expr) | EMul (e1 e2 : expr) | EScale (c : K) (e : expr) | ENeg (e : expr)
  | ETrans (e : expr) | EAdj (e : expr).
  Definition sameSize (a b : matrix) : bool := (m_rows a =? m_rows b) && (m_cols a =? m_cols b).
  Variable pinv : matrix -> matrix.
  (** the solver behaves as a generalised inverse *)
  Definition goodInverse : Prop := forall a,
    m_rows (pinv a) = m_cols a /\ m_cols (pinv a) = m_rows a /\ meq (pinv (mT a)) (mT (pinv a)) /\ meq (pinv (mH a)) (mH (pinv a)).
  (** the matrix an expression stands for; [None] when shapes do not fit *)
  Fixpoint value (e : expr) : option matrix :=
    match e with
    | ENonlocal a | EDense a | ESparse a => Some a
    | EInverse a => Some (pinv a)
    | EZero r c => Some (zeroMat r c)
    | ERankOne c r => Some (Mat (length c) (length r) (fun i j => mul (nth i c zero) (nth j r zero)))
    | EAdd a b => match value a, value b with
                  | Some x, Some y => if sameSize x y then Some (mAdd x y) else None | _, _ => None end
    | ESub a b => match value a, value b with
                  | Some x, Some y => if sameSize x y then Some (mAdd x (mOpp y)) else None | _, _ => None end
    | EMul a b => match value a, value b with
                  | Some x, Some y => if m_cols x =? m_rows y then Some (mMul x y) else None | _, _ => None end
    | EScale c a => option_map (mScale c) (value a)
    | ENeg a => option_map (@mOpp K) (value a)
    | ETrans a => option_map (@mT K) (value a)
    | EAdj a => option_map (@mH K) (value a)
    end.
  (** the Python program an expression stands for *)
  Fixpoint build (e : expr) : res (dop K) :=
    match e with
    | ENonlocal a => Ok (Nonlocal a) | EDense a => Ok (Dense a) | ESparse a => Ok (Sparse a) | EInverse a => Ok (Inverse a)
    | EZero r c => Ok (Zero r c) | ERankOne c r => Ok (RankOne c r)
    | EAdd a b => bind (build a) (fun x => bind (build b) (fun y => pyAdd x y))
    | ESub a b => bind (build a) (fun x => bind (build b) (fun y => pySub x y))
    | EMul a b => bind (build a) (fun x => bind (build b) (fun y => pyMul x y))
    | EScale c a => bind (build a) (fun x => Ok (pyScale x c))
    | ENeg a => bind (build a) (fun x => Ok (pyNeg x))
    | ETrans a => bind (build a) (@transpose K)
    | EAdj a => bind (build a) (@adjoint K)
    end.
  (** all subexpressions have some property *)
  Fixpoint every (P : expr -> Prop) (e : expr) : Prop :=
    P e /\ match e with
    | EAdd a b | ESub a b | EMul a b => every P a /\ every P b
    | EScale _ a | ENeg a | ETrans a | EAdj a => every P a
    | _ => True
    end.
  Definition noZero : expr -> Prop := every (fun e => match e with EZero _ _ => False | _ => True end).
  Definition noSparse : expr -> Prop := every (fun e => match e with ESparse _ => False | _ => True end).
  (** scalar factors equal their conjugates *)
  Definition realScalars : expr -> Prop := every (fun e => match e with EScale c _ => conj c = c | _ => True end).
  Definition realMat (a : matrix) : Prop := forall i j, i < m_rows a -> j < m_cols a -> conj (m_at a i j) = m_at a i j.
  Definition realDense : expr -> Prop := every (fun e => match e with EDense a => realMat a | _ => True end).
  (** transposes are only taken of expressions without zero operator, adjoints do not occur *)
  Definition transposable : expr -> Prop := every (fun e => match e with ETrans a => noZero a | EAdj _ => False | _ => True end).
  (** ... adjoints also only of those with real scalar factors *)
  Definition adjointable : expr -> Prop :=
    every (fun e => match e with ETrans a => noZero a | EAdj a => noZero a /\ realScalars a | _ => True end).
  (** an operator realises a matrix: shape, products with vectors and matrices, conversion to an array *)
  Definition realises (o : dop K) (m : matrix) : Prop :=
    shape o = (m_rows m, m_cols m) /\
    (forall x, m_rows x = m_cols m -> 0 < m_cols x -> exists y, dot pinv o x = Ok y /\ meq y (mMul m x)) /\
    (forall x, m_rows x = m_cols m -> m_cols x = 1 -> exists y, matvec pinv o x = Ok y /\ meq y (mMul m x)) /\
    (0 < m_cols m -> exists a, asMatrix pinv o = Ok a /\ meq a m).
End Spec.
Arguments ENonlocal {K}. Arguments EDense {K}. Arguments ESparse {K}. Arguments EInverse {K}. Arguments EZero {K}. Arguments ERankOne {K}.
Arguments EAdd {K}. Arguments ESub {K}. Arguments EMul {K}. Arguments EScale {K}. Arguments ENeg {K}. Arguments ETrans {K}. Arguments EAdj {K}.
