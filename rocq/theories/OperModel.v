(** Model of discrete boundary operators:
    /repo/lib/assembly/discrete_boundary_operator.cpp, discrete_dense_boundary_operator.cpp,
    discrete_sparse_boundary_operator.cpp, discrete_hmat_boundary_operator.cpp,
    transposition_mode.hpp.
    Simplifications: exact arithmetic; Eigen's dense and sparse products are the textbook
    sums; float is not distinguished from double; x and y do not alias.  [None] as an
    outcome: an exception, or a failed assertion on sizes. *)
From Verif Require Import Base AsmModel HMatApplyModel.
Set Implicit Arguments.

(** content of a vector that need not be initialised: [None] is NaN (or any other value that
    poisons the operations it takes part in) *)
Notation num K := (option (car K)).
Definition nadd {K : star_ring} (a b : num K) : num K :=
  match a, b with Some x, Some y => Some (add x y) | _, _ => None end.
Definition nmul {K : star_ring} (a b : num K) : num K :=
  match a, b with Some x, Some y => Some (mul x y) | _, _ => None end.
Fixpoint zipWith {A B C} (f : A -> B -> C) (l : list A) (m : list B) : list C :=
  match l, m with a :: l', b :: m' => f a b :: zipWith f l' m' | _, _ => [] end.

(** transposition_mode.hpp:32-37; the numbers are the enumerators' values *)
Inductive transposition := NO_TRANSPOSE | CONJUGATE | TRANSPOSE | CONJUGATE_TRANSPOSE.
Definition code (t : transposition) : Z :=
  match t with NO_TRANSPOSE => 0 | CONJUGATE => 1 | TRANSPOSE => 2 | CONJUGATE_TRANSPOSE => 3 end%Z.

(** Eigen: transpose(), conjugate(), product with a vector (sizes asserted) *)
Definition mT {K : star_ring} (A : AsmModel.mat K) : AsmModel.mat K := Mat (m_cols A) (m_rows A) (fun i j => m_at A j i).
Definition mC {K : star_ring} (A : AsmModel.mat K) : AsmModel.mat K := Mat (m_rows A) (m_cols A) (fun i j => conj (m_at A i j)).
Definition mscal {K : star_ring} (a : K) (A : AsmModel.mat K) : AsmModel.mat K := Mat (m_rows A) (m_cols A) (fun i j => mul a (m_at A i j)).
Definition mv {K : star_ring} (A : AsmModel.mat K) (x : list K) : option (list K) :=
  if m_cols A =? length x
  then Some (map (fun i => bsum (seq 0 (m_cols A)) (fun k => mul (m_at A i k) (nth k x zero))) (seq 0 (m_rows A)))
  else None.

(** a + b of two vectors (sizes asserted) *)
Definition vadd {K : star_ring} (p : list K) (y : list (num K)) : option (list (num K)) :=
  if length p =? length y then Some (zipWith (fun u v => nadd (Some u) v) p y) else None.

Section Apply.
  Variable K : star_ring.
  Variable isz : K -> bool.    (* comparison with 0 *)
  (** the type of applyBuiltInImpl: trans, x_in, y_inout, alpha, beta *)
  Definition builtIn := transposition -> list K -> list (num K) -> K -> K -> option (list (num K)).

  (** discrete_dense_boundary_operator.cpp:75-102 *)
  Definition denseImpl (A : AsmModel.mat K) : builtIn := fun t x y alpha beta =>
    let y1 := if isz beta then map (fun _ => Some zero) y else map (fun v => nmul v (Some beta)) y in
    let A' := match t with
              | NO_TRANSPOSE => A | CONJUGATE => mC A | TRANSPOSE => mT A | CONJUGATE_TRANSPOSE => mT (mC A) end in
    match mv (mscal alpha A') x with Some p => vadd p y1 | None => None end.

  (** discrete_sparse_boundary_operator.cpp:43-64 *)
  Definition sparseReal (A : AsmModel.mat K) : builtIn := fun t x y alpha beta =>
    let y1 := if isz beta then map (fun _ => Some zero) y else y in
    let go B := match mv B x with
                | Some p => vadd (map (mul alpha) p) (map (fun v => nmul (Some beta) v) y1)
                | None => None end in
    match t with TRANSPOSE | CONJUGATE_TRANSPOSE => go (mT A) | _ => go A end.

  (** discrete_sparse_boundary_operator.cpp:269-272: m_trans & (TRANSPOSE | CONJUGATE_TRANSPOSE) *)
  Definition isTransposed (m_trans : transposition) : bool :=
    negb (Z.land (code m_trans) (Z.lor (code TRANSPOSE) (code CONJUGATE_TRANSPOSE)) =? 0)%Z.
  (** 281-297 *)
  Definition realTrans (m_trans t : transposition) : transposition :=
    if isTransposed m_trans then
      match t with
      | NO_TRANSPOSE => TRANSPOSE | TRANSPOSE => NO_TRANSPOSE
      | CONJUGATE => CONJUGATE_TRANSPOSE | CONJUGATE_TRANSPOSE => CONJUGATE end
    else t.
  (** 274-299, real value types *)
  Definition sparseImpl (A : AsmModel.mat K) (m_trans : transposition) : builtIn := fun t => sparseReal A (realTrans m_trans t).
  (** 215-233 *)
  Definition sparseAsMatrix (A : AsmModel.mat K) (m_trans : transposition) : AsmModel.mat K := if isTransposed m_trans then mT A else A.
  Definition sparseRows (A : AsmModel.mat K) (m_trans : transposition) : nat := if isTransposed m_trans then m_cols A else m_rows A.
  Definition sparseCols (A : AsmModel.mat K) (m_trans : transposition) : nat := if isTransposed m_trans then m_rows A else m_cols A.

  (** discrete_boundary_operator.cpp:33-55.  [rows], [cols]: rowCount(), columnCount();
      [junk i]: the uninitialised activeCol of iteration i.  Result: list of columns.
      The vector [unit] is reset and set as in the code. *)
  Definition setv (v : list K) (i : nat) (a : K) : list K :=
    map (fun k => if k =? i then a else nth k v zero) (seq 0 (length v)).
  Fixpoint asMatrixLoop (impl : builtIn) (junk : nat -> list (num K)) (is : list nat) (unit : list K) : option (list (list (num K))) :=
    match is with
    | [] => Some []
    | i :: r =>
      let u1 := if 0 <? i then setv unit (i - 1) zero else unit in
      let u2 := setv u1 i one in
      match impl NO_TRANSPOSE u2 (junk i) one zero, asMatrixLoop impl junk r u2 with
      | Some col, Some cols => Some (col :: cols)
      | _, _ => None
      end
    end.
  Definition asMatrix (impl : builtIn) (cols : nat) (junk : nat -> list (num K)) : option (list (list (num K))) :=
    asMatrixLoop impl junk (seq 0 cols) (repeat zero cols).

  (** discrete_boundary_operator.cpp:57-83.  Matrices: number of rows, columns *)
  Definition isT_ (t : transposition) : bool := match t with TRANSPOSE | CONJUGATE_TRANSPOSE => true | _ => false end.
  Fixpoint applyCols (impl : builtIn) (t : transposition) (xs : list (list K)) (ys : list (list (num K))) (alpha beta : K) : option (list (list (num K))) :=
    match xs, ys with
    | x :: xs', y :: ys' =>
      match impl t x y alpha beta, applyCols impl t xs' ys' alpha beta with
      | Some r, Some rs => Some (r :: rs) | _, _ => None end
    | _, _ => Some []
    end.
  Definition applyMatrix (impl : builtIn) (rows cols : nat) (t : transposition)
      (xrows : nat) (xs : list (list K)) (yrows : nat) (ys : list (list (num K))) (alpha beta : K) : option (list (list (num K))) :=
    if negb (xrows =? (if isT_ t then rows else cols)) then None
    else if negb (yrows =? (if isT_ t then cols else rows)) then None
    else if negb (length xs =? length ys) then None
    else applyCols impl t xs ys alpha beta.
  (** 99-112; [junk]: the uninitialised result *)
  Definition applyFresh (impl : builtIn) (rows cols : nat) (t : transposition) (xrows : nat) (xs : list (list K)) (junk : list (list (num K))) :=
    applyMatrix impl rows cols t xrows xs (if isT_ t then cols else rows) junk one zero.

  (** discrete_hmat_boundary_operator.cpp:64-84: the H-matrix is applied to one-column
      matrices.  [hm]: HMatrix::apply; poisoned entries of y stand for arbitrary numbers [bad]. *)
  Definition hmatMode (t : transposition) : tmode :=
    match t with NO_TRANSPOSE => NOTRANS | TRANSPOSE => TRANS | CONJUGATE => CONJ | CONJUGATE_TRANSPOSE => CONJTRANS end.
  Definition hmatImpl (hm : tmode -> HMatApplyModel.mat K -> HMatApplyModel.mat K -> K -> K -> option (HMatApplyModel.mat K)) (bad : nat -> K) : builtIn :=
    fun t x y alpha beta =>
      match hm (hmatMode t) (fun i _ => nth i x zero)
               (fun i _ => match nth i y None with Some v => v | None => bad i end) alpha beta with
      | Some r => Some (map (fun i => Some (r i 0)) (seq 0 (length y)))
      | None => None
      end.
End Apply.

Arguments setv {K}.
(** ---- complex value types: std::complex<T> as pairs ---- *)
Section Complex.
  Variable K : star_ring.
  Add Ring KrC : (sr_ring K).
  Definition cx := (car K * car K)%type.
  Definition cx_add (x y : cx) : cx := (add (fst x) (fst y), add (snd x) (snd y)).
  Definition cx_sub (x y : cx) : cx := (sub (fst x) (fst y), sub (snd x) (snd y)).
  Definition cx_opp (x : cx) : cx := (opp (fst x), opp (snd x)).
  Definition cx_mul (x y : cx) : cx :=
    (sub (mul (fst x) (fst y)) (mul (snd x) (snd y)), add (mul (fst x) (snd y)) (mul (snd x) (fst y))).
  Definition cx_conj (x : cx) : cx := (fst x, opp (snd x)).
  Lemma cx_ring : ring_theory (zero, zero) (one, zero) cx_add cx_mul cx_sub cx_opp (@eq cx).
  Proof. constructor; intros; apply injective_projections; unfold cx_add, cx_mul, cx_sub, cx_opp; cbn [fst snd]; ring. Qed.
  Definition Cx : star_ring.
  Proof.
    refine (@StarRing cx (zero, zero) (one, zero) cx_add cx_mul cx_sub cx_opp cx_conj cx_ring _ _ _ _);
      intros; apply injective_projections; unfold cx_add, cx_mul, cx_conj; cbn [fst snd]; ring.
  Defined.
  Definition cxz (isz : K -> bool) (z : Cx) : bool := isz (fst z) && isz (snd z).
  (** cast<complex>() of a real matrix *)
  Definition castM (A : AsmModel.mat K) : AsmModel.mat Cx := Mat (m_rows A) (m_cols A) (fun i j => (m_at A i j, zero) : Cx).

  (** discrete_sparse_boundary_operator.cpp:144-202 (and 86-142) *)
  Definition re (v : num Cx) : num K := match v with Some z => Some (fst z) | None => None end.
  Definition im (v : num Cx) : num K := match v with Some z => Some (snd z) | None => None end.
  Definition mk (a b : num K) : num Cx := match a, b with Some x, Some y => Some ((x, y) : Cx) | _, _ => None end.
  Definition sparseComplex (isz : K -> bool) (A : AsmModel.mat K) : builtIn Cx := fun t x y alpha beta =>
    let y1 := if cxz isz beta then map (fun _ => Some (zero : Cx)) y else map (fun v => nmul v (Some beta)) y in
    let xr := map (fun z : Cx => fst z) x in let xi := map (fun z : Cx => snd z) x in
    let yr := map re y1 in let yi := map im y1 in
    match sparseReal isz A t xr yr (fst alpha) one with
    | None => None
    | Some yr1 =>
    match sparseReal isz A t xi yr1 (opp (snd alpha)) one with
    | None => None
    | Some yr2 =>
    match sparseReal isz A t xr yi (snd alpha) one with
    | None => None
    | Some yi1 =>
    match sparseReal isz A t xi yi1 (fst alpha) one with
    | None => None
    | Some yi2 => Some (zipWith mk yr2 yi2)
    end end end end.
  Definition sparseImplC (isz : K -> bool) (A : AsmModel.mat K) (m_trans : transposition) : builtIn Cx :=
    fun t => sparseComplex isz A (realTrans m_trans t).
End Complex.
