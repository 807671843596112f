(** Model of /repo/python/bempp/api/assembly/discrete_boundary_operator.py.
    NumPy arrays are matrices; a 1-d array is a matrix with one column.  dtypes are not
    modelled (splitting a complex vector into real and imaginary part, 383-388 and 719-724, is linear algebra in the
    scalar ring).  An exception of any kind is [Throws].
    SciPy (>= 0.16): LinearOperator.matvec/matmat/rmatvec check the sizes and call _matvec/_matmat/_rmatvec,
    the default _matmat stacks _matvec of the columns, transpose()/adjoint() call _transpose()/_adjoint(). *)
From Coq Require Import List Arith Bool.
Import ListNotations.
From Verif Require Import Base ArrayModel AsmModel QuadModel MatAlg.
Set Implicit Arguments.

Section PyOp.
  Variable K : star_ring.
  Notation matrix := (mat K).
  (** 1-d arrays of the rank one operator *)
  Definition colVec (v : list K) : matrix := Mat (length v) 1 (fun i _ => nth i v zero).
  Definition rowVec (v : list K) : matrix := Mat 1 (length v) (fun _ j => nth j v zero).

  Inductive dop :=
  | Nonlocal (a : matrix)                      (* 243-289, implementation in C++ *)
  | Dense (a : matrix)                         (* 292-362 *)
  | Sparse (a : matrix)                        (* 365-453 *)
  | Inverse (a : matrix)                       (* 456-507, of the sparse operator with this matrix *)
  | Zero (rows cols : nat)                     (* 510-551 *)
  | RankOne (column row : list K)              (* 554-604 *)
  | Sum (op1 op2 : dop)                        (* 116-156 *)
  | Prod (op1 op2 : dop)                       (* 159-205 *)
  | Scaled (op : dop) (alpha : K).             (* 207-241 *)

  (** NumPy's a + b with broadcasting *)
  Definition bcast (m n : nat) : option nat :=
    if m =? n then Some m else if m =? 1 then Some n else if n =? 1 then Some m else None.
  Definition bidx (m i : nat) : nat := if m =? 1 then 0 else i.
  Definition npAdd (a b : matrix) : res matrix :=
    match bcast (m_rows a) (m_rows b), bcast (m_cols a) (m_cols b) with
    | Some r, Some c => Ok (Mat r c (fun i j =>
        add (m_at a (bidx (m_rows a) i) (bidx (m_cols a) j)) (m_at b (bidx (m_rows b) i) (bidx (m_cols b) j))))
    | _, _ => Throws
    end.
  (** a.dot(b), and the product of SciPy sparse matrices *)
  Definition npDot (a b : matrix) : res matrix := if m_cols a =? m_rows b then Ok (mMul a b) else Throws.
  (** the sum of SciPy sparse matrices *)
  Definition spAdd (a b : matrix) : res matrix :=
    if (m_rows a =? m_rows b) && (m_cols a =? m_cols b) then Ok (mAdd a b) else Throws.

  (** the matrix of the solver of 634-733 *)
  Variable pinv : matrix -> matrix.

  (** the shape given to the base class by each constructor *)
  Fixpoint shape (o : dop) : nat * nat :=
    match o with
    | Nonlocal a | Dense a | Sparse a => (m_rows a, m_cols a)
    | Inverse a => (m_cols a, m_rows a)
    | Zero r c => (r, c)
    | RankOne c r => (length c, length r)
    | Sum a _ => shape a
    | Prod a b => (fst (shape a), snd (shape b))
    | Scaled a _ => shape a
    end.
  (** LinearOperator.matvec: sizes of x, then reshape of the result *)
  Definition checkVec (s : nat * nat) (x : matrix) (y : res matrix) : res matrix :=
    if (m_rows x =? snd s) && (m_cols x =? 1) then
      bind y (fun v => if (m_rows v * m_cols v =? fst s) then Ok (Mat (fst s) 1 (m_at v)) else Throws)
    else Throws.
  (** LinearOperator.matmat *)
  Definition checkMat (s : nat * nat) (x : matrix) (y : res matrix) : res matrix := if m_rows x =? snd s then y else Throws.
  Definition column (x : matrix) (j : nat) : matrix := Mat (m_rows x) 1 (fun i _ => m_at x i j).
  (** np.hstack of one-column arrays *)
  Definition hstack (cols : list matrix) : res matrix :=
    match cols with
    | [] => Throws
    | c :: r => if forallb (fun d => m_rows d =? m_rows c) r
                then Ok (Mat (m_rows c) (length cols) (fun i j => m_at (nth j cols c) i 0)) else Throws
    end.
  (** LinearOperator._matmat *)
  Definition byColumns (s : nat * nat) (f : matrix -> res matrix) (x : matrix) : res matrix :=
    bind (mapRes (fun j => checkVec s (column x j) (f (column x j))) (seq 0 (m_cols x))) hstack.

  (** _matvec ([multi = false]) and _matmat ([multi = true]): 137-141, 182-188, 224-228, 262-271, 308-312, 383-392,
      485-488, 531-535 and 585-589.  [matvec]/[matmat] of the parts check sizes. *)
  Fixpoint raw (multi : bool) (o : dop) (x : matrix) : res matrix :=
    let part op := if multi then checkMat (shape op) x (raw multi op x) else checkVec (shape op) x (raw multi op x) in
    match o with
    | Nonlocal a | Dense a | Sparse a => npDot a x
    | Inverse a => if multi then byColumns (m_cols a, m_rows a) (fun v => npDot (pinv a) v) x else npDot (pinv a) x
    | Zero r c => if multi then byColumns (r, c) (fun _ => Ok (zeroMat r 1)) x else Ok (zeroMat r (m_cols x))
    | RankOne c r => if multi then byColumns (length c, length r) (fun v => bind (npDot (rowVec r) v) (npDot (colVec c))) x
                     else bind (npDot (rowVec r) x) (npDot (colVec c))
    | Sum a b => bind (part a) (fun y => bind (part b) (fun z => npAdd y z))
    | Prod a b => bind (part b) (fun y =>
                  if multi then checkMat (shape a) y (raw multi a y) else checkVec (shape a) y (raw multi a y))
    | Scaled a c => bind (part a) (fun y => Ok (mScale c y))
    end.
  (** 39-54: multiplication with an array *)
  Definition dot (o : dop) (x : matrix) : res matrix := raw (negb (m_cols x =? 1)) o x.
  Definition matvec (o : dop) (x : matrix) : res matrix := checkVec (shape o) x (raw false o x).
  Definition matmat (o : dop) (x : matrix) : res matrix := checkMat (shape o) x (raw true o x).
  (** 607-632 *)
  Definition asMatrix (o : dop) : res matrix :=
    match o with
    | Dense a | Sparse a => Ok a
    | _ => dot o (mId K (snd (shape o)))
    end.

  (** 28-33, 119-130, 317-321, 408-414 *)
  Definition pyAdd (a b : dop) : res dop :=
    match a, b with
    | Dense x, Dense y => bind (npAdd x y) (fun m => Ok (Dense m))
    | Sparse x, Sparse y => bind (spAdd x y) (fun m => Ok (Sparse m))
    | _, _ => if (fst (shape a) =? fst (shape b)) && (snd (shape a) =? snd (shape b)) then Ok (Sum a b) else Throws
    end.
  (** 35-42, 162-174, 326-335, 419-433 *)
  Definition pyMul (a b : dop) : res dop :=
    match a, b with
    | Dense x, Dense y => bind (npDot x y) (fun m => Ok (Dense m))
    | Sparse x, Sparse y => bind (npDot x y) (fun m => Ok (Sparse m))
    | _, _ => if snd (shape a) =? fst (shape b) then Ok (Prod a b) else Throws
    end.
  (** 45-46, 56-63, 333-341, 430-439: from the left and from the right *)
  Definition pyScale (a : dop) (c : K) : dop :=
    match a with
    | Dense x => Dense (mScale c x)
    | Sparse x => Sparse (mScale c x)
    | _ => Scaled a c
    end.
  (** 76-78, 323-324, 416-417 *)
  Definition pyNeg (a : dop) : dop :=
    match a with
    | Dense x => Dense (mOpp x)
    | Sparse x => Sparse (mOpp x)
    | _ => pyScale a (opp one)
    end.
  (** 80-82 *)
  Definition pySub (a b : dop) : res dop := pyAdd a (pyNeg b).
  (** _transpose: 149-150, 197-199, 236-237, 277-279, 343-345, 394-396, 497-499, 546-547, 595-596 *)
  Fixpoint transpose (o : dop) : res dop :=
    match o with
    | Nonlocal a => Ok (Nonlocal (mT a))
    | Dense a => Ok (Dense (mT a))
    | Sparse a => Ok (Sparse (mT a))
    | Inverse a => Ok (Inverse (mT a))
    | Zero _ _ => Throws
    | RankOne c r => Ok (RankOne r c)
    | Sum a b => bind (transpose a) (fun x => bind (transpose b) (fun y => pyAdd x y))
    | Prod a b => bind (transpose b) (fun y => bind (transpose a) (fun x => pyMul y x))
    | Scaled a c => bind (transpose a) (fun x => Ok (pyScale x c))
    end.
  (** _adjoint: 146-147, 193-195, 233-234, 273-275, 347-349, 403-406, 501-503, 543-544, 598-600;
      the scalar is not conjugated in 234 *)
  Fixpoint adjoint (o : dop) : res dop :=
    match o with
    | Nonlocal a => Ok (Nonlocal (mH a))
    | Dense a => Ok (Dense (mH a))
    | Sparse a => Ok (Sparse (mH a))
    | Inverse a => Ok (Inverse (mH a))
    | Zero _ _ => Throws
    | RankOne c r => Ok (RankOne (map (@conj K) r) (map (@conj K) c))
    | Sum a b => bind (adjoint a) (fun x => bind (adjoint b) (fun y => pyAdd x y))
    | Prod a b => bind (adjoint b) (fun y => bind (adjoint a) (fun x => pyMul y x))
    | Scaled a c => bind (adjoint a) (fun x => Ok (pyScale x c))
    end.
  (** LinearOperator.rmatvec for a 1-d array, and _rmatvec: 143-144, 190-191, 230-231 (scalar not conjugated),
      266-268, 314-315 (x.dot(A): not conjugated), 398-401 (SciPy matrices have no method adjoint),
      490-495, 537-541, 591-593 *)
  Definition swap (s : nat * nat) : nat * nat := (snd s, fst s).
  Fixpoint rraw (o : dop) (x : matrix) : res matrix :=
    let part op := checkVec (swap (shape op)) x (rraw op x) in
    match o with
    | Nonlocal a => npDot (mH a) x
    | Dense a => npDot (mT a) x
    | Sparse _ => Throws
    | Inverse a => npDot (pinv (mH a)) x
    | Zero r c => Ok (zeroMat c 1)
    | RankOne c r => bind (npDot (rowVec (map (@conj K) c)) x) (npDot (colVec (map (@conj K) r)))
    | Sum a b => bind (part a) (fun y => bind (part b) (fun z => npAdd y z))
    | Prod a b => bind (part a) (fun y => checkVec (swap (shape b)) y (rraw b y))
    | Scaled a c => bind (part a) (fun y => Ok (mScale c y))
    end.
  Definition rmatvec (o : dop) (x : matrix) : res matrix := checkVec (swap (shape o)) x (rraw o x).
End PyOp.
Arguments Nonlocal {K}. Arguments Dense {K}. Arguments Sparse {K}. Arguments Inverse {K}. Arguments Zero {K}.
Arguments RankOne {K}. Arguments Sum {K}. Arguments Prod {K}. Arguments Scaled {K}.
Arguments colVec {K}. Arguments rowVec {K}.
