(** Specification: linear combinations of potential operators and the matrices they stand for *)
From Coq Require Import List Arith Bool.
Import ListNotations.
From Verif Require Import Base ArrayModel AsmModel QuadModel MatAlg PyOpModel PyOpSpec PyBopModel PyBlockModel PyGfModel PotModel.
Set Implicit Arguments.

Section Spec.
  Variable K : star_ring.
  Variable T : Type.
  Variable teq : T -> T -> bool.
  (** [PBase m n s x]: a potential with n components and points x, assembled on the space s *)
  Inductive pexpr :=
  | PBase (m : mat K) (comps : nat) (s : space) (x : points T)
  | PAdd (a b : pexpr) | PSub (a b : pexpr) | PScale (a : pexpr) (c : K) | PNeg (a : pexpr).
  Fixpoint pbuild (e : pexpr) : res (pot K T) :=
    match e with
    | PBase m n s x => Ok (Pot (Nonlocal m) n s x)
    | PAdd a b => bind (pbuild a) (fun p => bind (pbuild b) (fun q => potAdd teq p q))
    | PSub a b => bind (pbuild a) (fun p => bind (pbuild b) (fun q => potSub teq p q))
    | PScale a c => bind (pbuild a) (fun p => Ok (potScale p c))
    | PNeg a => bind (pbuild a) (fun p => Ok (potNeg p))
    end.
  Fixpoint pmatrix (e : pexpr) : mat K :=
    match e with
    | PBase m _ _ _ => m
    | PAdd a b => mAdd (pmatrix a) (pmatrix b)
    | PSub a b => mAdd (pmatrix a) (mOpp (pmatrix b))
    | PScale a c => mScale c (pmatrix a)
    | PNeg a => mOpp (pmatrix a)
    end.
  Definition pointsEq (x y : points T) : Prop := pt_rows x = pt_rows y /\ pt_cols x = pt_cols y /\
    forall i j, i < pt_rows x -> j < pt_cols x -> pt_at x i j = pt_at y i j.
  Fixpoint bases (P : mat K -> nat -> space -> points T -> Prop) (e : pexpr) : Prop :=
    match e with
    | PBase m n s x => P m n s x
    | PAdd a b | PSub a b => bases P a /\ bases P b
    | PScale a _ | PNeg a => bases P a
    end.
  (** the matrix of a potential has a row for every component and point, and a column for every degree of freedom *)
  Definition pSized : pexpr -> Prop := bases (fun m n s x => 0 < n /\ m_rows m = n * pt_cols x /\ m_cols m = s_dofs s).
  (** all potentials have [n] components, [d] degrees of freedom and the points [x] *)
  Definition sameKind (n d : nat) (x : points T) : pexpr -> Prop := bases (fun _ n' s x' => n' = n /\ s_dofs s = d /\ pointsEq x' x).
End Spec.
Arguments PBase {K T}. Arguments PAdd {K T}. Arguments PSub {K T}. Arguments PScale {K T}. Arguments PNeg {K T}.
