(** Specification: spaces of functions, bilinear forms and Galerkin matrices. *)
From Coq Require Import List Bool Arith.
Import ListNotations.
From Verif Require Import Base ArrayModel AsmModel MatAlg PyOpModel PyOpSpec PyBopModel PyBopSpec GalModel.
Set Implicit Arguments.
Unset Strict Implicit.

Section Spec.
Variable K : star_ring.
(** functions on the surface: any set with zero, sum and multiples, and a notion of equality *)
Record functions := Functions { fn :> Type; fzero : fn; fadd : fn -> fn -> fn; fscale : K -> fn -> fn; feq : fn -> fn -> Prop }.
Variable F : functions.
(** linear combination of n functions *)
Definition comb (n : nat) (u : nat -> F) (c : nat -> K) : F := fold_right (fun i acc => fadd (fscale (c i) (u i)) acc) (fzero F) (seq 0 n).
(** a form (test, trial), linear in both arguments *)
Record bilinear (a : F -> F -> K) : Prop := Bilinear {
  b_eq_l : forall u u' v, feq u u' -> a u v = a u' v; b_eq_r : forall u v v', feq v v' -> a u v = a u v';
  b_zero_l : forall v, a (fzero F) v = zero; b_zero_r : forall u, a u (fzero F) = zero;
  b_add_l : forall u u' v, a (fadd u u') v = add (a u v) (a u' v); b_add_r : forall u v v', a u (fadd v v') = add (a u v) (a u v');
  b_scale_l : forall c u v, a (fscale c u) v = mul c (a u v); b_scale_r : forall c u v, a u (fscale c v) = mul c (a u v) }.
(** basis functions of the spaces *)
Variable basis : space -> nat -> F.
(** the Galerkin matrix of a form: rows are test functions, columns trial functions *)
Definition galerkin (a : F -> F -> K) (d t : space) : mat K := Mat (s_dofs t) (s_dofs d) (fun i j => a (basis t i) (basis d j)).
(** the first n functions of u are combinations of the basis of w *)
Definition spanned (w : space) (n : nat) (u : nat -> F) : Prop := exists P : nat -> nat -> K, forall j, j < n -> feq (u j) (comb (s_dofs w) (basis w) (fun i => P i j)).
(** ... with real coefficients *)
Definition reallySpanned (w : space) (n : nat) (u : nat -> F) : Prop :=
  exists P : nat -> nat -> K, (forall i j, conj (P i j) = P i j) /\ forall j, j < n -> feq (u j) (comb (s_dofs w) (basis w) (fun i => P i j)).
Definition subspace (v w : space) : Prop := spanned w (s_dofs v) (basis v).
(** two spaces have the same basis *)
Definition sameBasis (v w : space) : Prop := s_dofs v = s_dofs w /\ forall i, i < s_dofs v -> feq (basis v i) (basis w i).
(** the mass matrix of the space is inverted exactly *)
Definition invertible (pinv : mat K -> mat K) (m : mat K) : Prop := meq (mMul (pinv m) m) (mId K (m_cols m)) /\ meq (mMul m (pinv m)) (mId K (m_rows m)).
(** an assembler gives the Galerkin matrix of a form (or of a form applied to transformed trial functions) *)
Definition leaf (e : expr K) : Prop := match e with ENonlocal _ | EDense _ | ESparse _ => True | _ => False end.
Definition assembles (pinv : mat K -> mat K) (e : expr K) (m : mat K) : Prop := leaf e /\ exists m', value pinv e = Some m' /\ meq m' m.
(** functions of d are functions of w, whose mass matrix is inverted exactly (or the spaces are the same) *)
Definition finer (pinv : mat K -> mat K) (ip : F -> F -> K) (d w : space) : Prop :=
  d = w \/ invertible pinv (galerkin ip w w) /\ subspace d w.
End Spec.
Section Effects.
Variable K : star_ring.
Variable mass : space -> space -> mat K.
Variable pinv : mat K -> mat K.
(** the objects of an expression can be created after any program; the last of them then has the given spaces and
    its weak form, computed at once or again, acts as the given matrix *)
Definition discretises (e : boe K) (d r t : space) (m : mat K) : Prop :=
  forall cs0, exists cs1 i, nth_error (objects (cs0 ++ cs1)) i = Some e /\
    (exists o, nth_error (run mass (cs0 ++ cs1)) i = Some o /\ o_dom o = d /\ o_ran o = r /\ o_dual o = t) /\
    forall rc, exists w, snd (weak_form mass rc i (run mass (cs0 ++ cs1))) = Ok w /\ realises pinv w m.
End Effects.
Section SpaceFamilies.
Variable K : star_ring.
Variable F : functions K.
Variable basis : space -> nat -> F.
(** a space can be represented in its super space, and so can its non-barycentric version, which has the same basis *)
Definition faithful (at_ : attributes) (pinv : mat K -> mat K) (ip : F -> F -> K) (s : space) : Prop :=
  finer basis pinv ip s (superSpace at_ s) /\
  (isBarycentric at_ s = true -> hasNonBarycentric at_ s = true ->
     sameBasis basis s (nonBarycentric at_ s) /\ isBarycentric at_ (nonBarycentric at_ s) = false /\
     finer basis pinv ip (nonBarycentric at_ s) (superSpace at_ (nonBarycentric at_ s))).
End SpaceFamilies.

Section SurfaceForms.
Variable K : star_ring.
Variable F : functions K.
Variable basis : space -> nat -> F.
(** an integral or local operator: whatever spaces it is given, what it assembles is the Galerkin matrix of the form *)
Definition assemblesForm (pinv : mat K -> mat K) (op : assembler K) (a : F -> F -> K) : Prop :=
  forall d t, assembles pinv (op d t) (galerkin basis a d t).
(** the hypersingular form in terms of the single layer form: components of surface curls and, for wave problems,
    of functions times the normal *)
Definition curlCurl (a : F -> F -> K) (curlOf normalTimes : nat -> F -> F) (wave2 : option K) (v u : F) : K :=
  let part (g : nat -> F -> F) := add (add (a (g 0 v) (g 0 u)) (a (g 1 v) (g 1 u))) (a (g 2 v) (g 2 u)) in
  match wave2 with None => part curlOf | Some k2 => add (part curlOf) (mul k2 (part normalTimes)) end.
(** the three components of the curls (and normals) of the functions of d belong to w, with real coefficients *)
Definition componentsIn (w d : space) (curlOf normalTimes : nat -> F -> F) (wave2 : option K) : Prop :=
  forall c, c < 3 -> reallySpanned basis w (s_dofs d) (fun j => curlOf c (basis d j)) /\
    (wave2 <> None -> reallySpanned basis w (s_dofs d) (fun j => normalTimes c (basis d j))).
(** an operator that exists in some program and whose weak form is the Galerkin matrix on w *)
Record singleLayerOn (mass : space -> space -> mat K) (pinv : mat K -> mat K) (a : F -> F -> K) (s : boe K) (w : space) : Prop := SingleLayerOn {
  sl_made : exists cs i, nth_error (objects cs) i = Some s;
  sl_dom : dom s = w; sl_dual : dual s = w; sl_sized : sized pinv s; sl_adj : adjointable (weakE mass s);
  sl_mat : meq (weakM mass pinv s) (galerkin basis a w w) }.
End SurfaceForms.
