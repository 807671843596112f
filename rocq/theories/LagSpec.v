(** Vocabulary: points of the surface. *)
From Coq Require Import Reals.
From Verif Require Import Base ComplexR SegModel AsmModel SpaceModel PolySpec VecModel.
Set Implicit Arguments.
Unset Strict Implicit.
Local Open Scope R_scope.

(** barycentric coordinates of a reference point *)
Definition baryR (q : R * R) : list R := [1 - fst q - snd q; fst q; snd q].
(** the share of vertex v of the grid in the point q of element e *)
Definition shareOf (e : selt) (q : R * R) (v : Z) : R :=
  fold_right Rplus 0 (map (fun x : Z * R => if (fst x =? v)%Z then snd x else 0) (combine (s_verts e) (baryR q))).
(** two points of two elements are the same point of the surface *)
Definition sameSurfacePoint (e : selt) (q : R * R) (e' : selt) (q' : R * R) : Prop :=
  forall v, shareOf e q v = shareOf e' q' v.
(** the reference point of a node *)
Definition nodePoint (p : nat) (n : nat * nat) : R * R := (INR (fst n) / INR p, INR (snd n) / INR p).
