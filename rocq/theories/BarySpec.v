(** Vocabulary for spaces on the barycentric refinement. *)
From Coq Require Import Reals.
From Verif Require Import Base ComplexR SegModel SegSpec AsmModel SpaceModel SpaceSpec VecModel VecSpec BaryModel.
Set Implicit Arguments.
Unset Strict Implicit.
Local Open Scope R_scope.

(** points of the reference triangle *)
Definition inReference (q : R * R) : Prop := 0 <= fst q /\ 0 <= snd q /\ fst q + snd q <= 1.
(** the six sons of each of n elements are numbered from 0 to 6 n - 1 *)
Definition sonNumbering (n : Z) (son : Z -> nat -> Z) : Prop :=
  (forall e i, (0 <= e < n)%Z -> (i < 6)%nat -> (0 <= son e i < 6 * n)%Z) /\
  (forall e i e' i', (0 <= e < n)%Z -> (i < 6)%nat -> (0 <= e' < n)%Z -> (i' < 6)%nat ->
     son e i = son e' i' -> e = e' /\ i = i').
(** point q of son i of triangle T is point q' of T *)
Definition sonPointIs (T : tri) (i : nat) (q q' : R * R) : Prop := globalPoint (sonTri T i) q = globalPoint T q'.
(** the grid consists of triangles *)
Definition triangular (g : sgrid) : Prop := forall e, In e (g_elts g) -> length (s_verts e) = 3%nat.
(** at most two triangles meet in an edge *)
Definition manifold (g : sgrid) : Prop := forall i, (length (sidesOn g i) <= 2)%nat.
