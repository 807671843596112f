(** Specification: expressions of blocked operators and the block matrices they stand for *)
From Coq Require Import List Arith Bool.
Import ListNotations.
From Verif Require Import Base ArrayModel AsmModel QuadModel MatAlg PyOpModel PyOpSpec PyBlockModel.
Set Implicit Arguments.

Section Spec.
  Variable K : star_ring.
  Notation matrix := (mat K).
  Variable pinv : matrix -> matrix.
  (** where block i begins *)
  Definition off (R : list nat) (i : nat) : nat := list_sum (firstn i R).
  (** block (i, j) of a matrix with block dimensions R and C *)
  Definition blockOf (R C : list nat) (i j : nat) (m : matrix) : matrix :=
    Mat (nth i R 0) (nth j C 0) (fun a b => m_at m (off R i + a) (off C j + b)).
  (** [m] has the blocks [M i j] *)
  Definition isBlockMatrix (R C : list nat) (M : nat -> nat -> matrix) (m : matrix) : Prop :=
    m_rows m = list_sum R /\ m_cols m = list_sum C /\
    forall i j, i < length R -> j < length C -> meq (blockOf R C i j m) (M i j).

  Inductive bexpr :=
  | XBlocks (blocks : list (list (option (expr K))))
  | XAdd (a b : bexpr) | XSub (a b : bexpr) | XMul (a b : bexpr) | XScale (c : K) (a : bexpr) | XNeg (a : bexpr).
  Definition entry (blocks : list (list (option (expr K)))) (i j : nat) : option (expr K) :=
    match nth_error blocks i with Some r => match nth_error r j with Some e => e | None => None end | None => None end.
  (** the matrix a block stands for; missing blocks are zero *)
  Definition blockValue (R C : list nat) (blocks : list (list (option (expr K)))) (i j : nat) : option matrix :=
    match entry blocks i j with Some e => value pinv e | None => Some (zeroMat (nth i R 0) (nth j C 0)) end.
  (** [hasValue e R C m]: e stands for the matrix m with block dimensions R and C *)
  Inductive hasValue : bexpr -> list nat -> list nat -> matrix -> Prop :=
  | VBlocks blocks R C M m :
      length blocks = length R -> (forall r, In r blocks -> length r = length C) ->
      (** every row and every column has an operator *)
      (forall i, i < length R -> exists j e, entry blocks i j = Some e) ->
      (forall j, j < length C -> exists i e, entry blocks i j = Some e) ->
      (forall i j, i < length R -> j < length C ->
         blockValue R C blocks i j = Some (M i j) /\ m_rows (M i j) = nth i R 0 /\ m_cols (M i j) = nth j C 0) ->
      (forall i j e, entry blocks i j = Some e -> adjointable e) ->
      R <> [] -> isBlockMatrix R C M m -> hasValue (XBlocks blocks) R C m
  | VAdd a b R C m n : hasValue a R C m -> hasValue b R C n -> hasValue (XAdd a b) R C (mAdd m n)
  | VSub a b R C m n : hasValue a R C m -> hasValue b R C n -> hasValue (XSub a b) R C (mAdd m (mOpp n))
  | VMul a b R D C m n : hasValue a R D m -> hasValue b D C n -> hasValue (XMul a b) R C (mMul m n)
  | VScale c a R C m : hasValue a R C m -> hasValue (XScale c a) R C (mScale c m)
  | VNeg a R C m : hasValue a R C m -> hasValue (XNeg a) R C (mOpp m).

  Definition buildEntry (e : option (expr K)) : res (option (dop K)) :=
    match e with None => Ok None | Some e => bind (build e) (fun o => Ok (Some o)) end.
  (** the Python program an expression stands for *)
  Fixpoint bbuild (e : bexpr) : res (bop K) :=
    match e with
    | XBlocks blocks => bind (mapRes (mapRes buildEntry) blocks) (fun ops => bind (mkBlocked ops) (fun b => Ok (BLeaf b)))
    | XAdd a b => bind (bbuild a) (fun x => bind (bbuild b) (fun y => bAdd x y))
    | XSub a b => bind (bbuild a) (fun x => bind (bbuild b) (fun y => bSub x y))
    | XMul a b => bind (bbuild a) (fun x => bind (bbuild b) (fun y => bMul x y))
    | XScale c a => bind (bbuild a) (fun x => Ok (bScale x c))
    | XNeg a => bind (bbuild a) (fun x => Ok (bNeg x))
    end.
  (** an operator realises a block matrix: dimensions, products with arrays of both kinds, conversion, single blocks *)
  Definition brealises (o : bop K) (R C : list nat) (m : matrix) : Prop :=
    rowDims o = R /\ colDims o = C /\ bshape o = (list_sum R, list_sum C) /\
    (forall oned x, m_rows x = list_sum C -> 0 < m_cols x -> (oned = true -> m_cols x = 1) ->
       exists y, bapply pinv oned o x = Ok y /\ meq y (mMul m x)) /\
    (forall oned x, m_rows x = list_sum C -> m_cols x = 1 -> exists y, bmatvec pinv oned o x = Ok y /\ meq y (mMul m x)) /\
    (0 < list_sum C -> exists a, bAsMatrix pinv o = Ok a /\ meq a m) /\
    (forall i j, i < length R -> j < length C -> exists d, bget o i j = Ok d /\ realises pinv d (blockOf R C i j m)).
End Spec.
Arguments XBlocks {K}. Arguments XAdd {K}. Arguments XSub {K}. Arguments XMul {K}. Arguments XScale {K}. Arguments XNeg {K}.
