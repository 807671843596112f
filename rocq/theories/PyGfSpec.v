(** Specification: a grid function stands for a space and a coefficient vector *)
From Coq Require Import List Arith Bool.
Import ListNotations.
From Verif Require Import Base ArrayModel AsmModel QuadModel MatAlg PyOpModel PyOpSpec PyBopModel PyBlockModel PyBlockSpec PyGfModel.
Set Implicit Arguments.

Notation fn K := (space * mat K)%type.
Section Spec.
  Variable K : star_ring.
  Variable mass : space -> space -> mat K.
  Variable pinv : mat K -> mat K.
  Notation vec := (mat K).
  Definition vecFor (s : space) (v : vec) : Prop := m_rows v = s_dofs s /\ m_cols v = 1.
  Definition dualOf (s : space) (d : option space) : space := match d with Some t => t | None => s end.

  (** the functions created by a program, in order; queries create and change nothing (f - g creates -g first) *)
  Definition addFn (a b : (fn K)) : list (fn K) := if speq (fst a) (fst b) then [(fst a, mAdd (snd a) (snd b))] else [].
  Fixpoint setFn (l : list (fn K)) (i : nat) (v : vec) : list (fn K) :=
    match l, i with [], _ => [] | (s, _) :: r, 0 => (s, v) :: r | f :: r, S k => f :: setFn r k v end.
  Definition meansNext (l : list (fn K)) (c : gcmd K) : list (fn K) :=
    match c with
    | GNew s d v => l ++ [(s, v)]
    | GProjd s d p => l ++ [(s, mMul (pinv (mass s (dualOf s d))) p)]
    | GSet i v => setFn l i v
    | GAdd i j => match nth_error l i, nth_error l j with Some a, Some b => l ++ addFn a b | _, _ => l end
    | GSub i j => match nth_error l i, nth_error l j with
                  | Some a, Some b => if speq (fst a) (fst b) then l ++ [(fst b, mOpp (snd b))] ++ addFn a (fst b, mOpp (snd b)) else l
                  | _, _ => l end
    | GScl i a => match nth_error l i with Some f => l ++ [(fst f, mScale a (snd f))] | None => l end
    | GApp d r t e i => match nth_error l i, value pinv e with
                        | Some f, Some m => if s_dofs d =? s_dofs (fst f) then l ++ [(r, mMul (pinv (mass r t)) (mMul m (snd f)))] else l
                        | _, _ => l end
    | GCoeff _ | GProj _ _ => l
    end.
  Definition means (cs : list (gcmd K)) : list (fn K) := fold_left meansNext cs [].

  (** arrays given by the user and weak forms of operators have the right sizes *)
  Definition fits (l : list (fn K)) (c : gcmd K) : Prop :=
    match c with
    | GNew s d v => vecFor s v
    | GProjd s d p => vecFor (dualOf s d) p
    | GSet i v => forall s w, nth_error l i = Some (s, w) -> vecFor s v
    | GApp d r t e i => adjointable e /\ exists m, value pinv e = Some m /\ m_rows m = s_dofs t /\ m_cols m = s_dofs d
    | _ => True
    end.
  (** projections onto another than the stored dual space are only asked for when f.representation is 'primal' *)
  Definition safeQuery (h : gheap K) (i : nat) (d : option space) : Prop :=
    forall g t, nth_error h i = Some g -> g_repr g = Dual -> d = Some t -> t = g_dual g.
  Definition safe (h : gheap K) (c : gcmd K) : Prop := match c with GProj i d => safeQuery h i d | _ => True end.
  Definition orderly (cs : list (gcmd K)) : Prop :=
    forall cs1 c cs2, cs = cs1 ++ c :: cs2 -> fits (means cs1) c /\ safe (grun mass pinv cs1) c.
  (** projections determine the function and conversely: the mass matrix is invertible *)
  Definition properDual (s d : space) : Prop := forall p, vecFor d p -> meq (mMul (mass s d) (mMul (pinv (mass s d)) p)) p.
  (** [s], [d] are the spaces of a function given by projections *)
  Definition givenBy (s d : space) (c : gcmd K) : Prop :=
    match c with GProjd s' d' _ => s = s' /\ d = dualOf s' d' | GApp _ r t _ _ => s = r /\ d = t | _ => False end.
  Definition properDuals (cs : list (gcmd K)) : Prop := forall c s d, In c cs -> givenBy s d c -> properDual s d.
  (** [x] is made of the vectors [vs], one below the other *)
  Definition isStack (dims : list nat) (vs : list vec) (x : vec) : Prop :=
    m_rows x = list_sum dims /\ m_cols x = 1 /\ length vs = length dims /\
    forall k v, nth_error vs k = Some v -> meq (rowSlice x (off dims k) (nth k dims 0)) v.
End Spec.
