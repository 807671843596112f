(** GridFunction.integrate: /repo/python/bempp/api/assembly/grid_function.py 277-298, with the
    numpy operations it uses. *)
From Coq Require Import Reals List Arith Bool.
Import ListNotations.
Set Implicit Arguments.
Local Open Scope R_scope.
Local Open Scope bool_scope.

Definition cplx : Type := R * R.
Definition cadd (a b : cplx) : cplx := (fst a + fst b, snd a + snd b).
Definition cscale (r : R) (a : cplx) : cplx := (r * fst a, r * snd a).
(** numpy arrays: is the dtype complex128 (otherwise float64); shape; entries *)
Record ndarray := NdArray { nd_complex : bool; nd_shape : list nat; nd_at : list nat -> cplx }.
(** np.zeros(shape, dtype='float64') *)
Definition npZeros (shape : list nat) : ndarray := NdArray false shape (fun _ => (0, 0)).
(** broadcasting rule: align the shapes at their last dimension; dimensions must agree or be 1 *)
Fixpoint broadcastRev (a b : list nat) : option (list nat) :=
  match a, b with
  | [], r | r, [] => Some r
  | x :: a', y :: b' =>
    match broadcastRev a' b' with
    | None => None
    | Some r => if Nat.eqb x y then Some (x :: r) else if Nat.eqb x 1 then Some (y :: r) else if Nat.eqb y 1 then Some (x :: r) else None
    end
  end.
Definition broadcast (a b : list nat) : option (list nat) := option_map (@rev nat) (broadcastRev (rev a) (rev b)).
(** the index of an operand of the given shape *)
Fixpoint operandIndexRev (shape idx : list nat) : list nat :=
  match shape, idx with
  | d :: s, i :: r => (if Nat.eqb d 1 then 0%nat else i) :: operandIndexRev s r
  | _, _ => []
  end.
Definition operandIndex (shape idx : list nat) : list nat := rev (operandIndexRev (rev shape) (rev idx)).
Definition shapeEqb (a b : list nat) : bool := if list_eq_dec Nat.eq_dec a b then true else false.
(** a += b: the result must have the shape of a, and casting complex128 to float64 is not allowed;
    None: an exception *)
Definition npIadd (a b : ndarray) : option ndarray :=
  match broadcast (nd_shape a) (nd_shape b) with
  | None => None
  | Some s =>
    if shapeEqb s (nd_shape a) && negb (nd_complex b && negb (nd_complex a))
    then Some (NdArray (nd_complex a) s (fun i => cadd (nd_at a (operandIndex (nd_shape a) i)) (nd_at b (operandIndex (nd_shape b) i))))
    else None
  end.
(** sum of n numbers *)
Definition csum (n : nat) (f : nat -> cplx) : cplx := fold_left cadd (map f (seq 0 n)) (0, 0).

Section Integrate.
Variable E : Type.
(** component_count; dtype of the values; evaluate(e, points)[k, p]; weights[p];
    integration_elements(points)[p] *)
Variables (components : nat) (isComplex : bool) (values : E -> nat -> nat -> cplx) (npoints : nat) (weight : nat -> R) (ie : E -> nat -> R).
(** 292-297: np.sum(values * weights * integration_elements, axis=1) *)
Definition elementSum (e : E) : ndarray :=
  NdArray isComplex [components] (fun i => csum npoints (fun p => cscale (ie e p) (cscale (weight p) (values e (nth 0 i 0%nat) p)))).
(** 282-298 *)
Definition integrate (elements : list E) : option ndarray :=
  fold_left (fun acc e => match acc with None => None | Some res => npIadd res (elementSum e) end) elements (Some (npZeros [components; 1%nat])).
End Integrate.
