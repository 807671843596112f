From Coq Require Import List QArith Qminmax Qabs Bool.
Import ListNotations.
From Verif Require Import InsideModel.
Local Open Scope Q_scope.

Definition veq (a b : v3) : Prop := vx a == vx b /\ vy a == vy b /\ vz a == vz b.
(** the point of the triangle with barycentric coordinates (1-u-v, u, v) *)
Definition onTriangle (v0 v1 v2 : v3) (u v : Q) : v3 :=
  V3 (vx v0 + u * (vx v1 - vx v0) + v * (vx v2 - vx v0))
     (vy v0 + u * (vy v1 - vy v0) + v * (vy v2 - vy v0))
     (vz v0 + u * (vz v1 - vz v0) + v * (vz v2 - vz v0)).
Definition above (p : v3) (t : Q) : v3 := V3 (vx p) (vy p) (vz p + t).
(** twice the signed area of the triangle's projection to the xy plane *)
Definition area2 (v0 v1 v2 : v3) : Q :=
  (vx v2 - vx v0) * (vy v1 - vy v0) - (vx v1 - vx v0) * (vy v2 - vy v0).
(** not (almost) parallel to the z axis *)
Definition steepEnough (v0 v1 v2 : v3) : Prop := eps <= area2 v0 v1 v2 \/ area2 v0 v1 v2 <= - eps.
(** the ray from p in direction z meets the triangle at parameter t >= eps *)
Definition meetsAt (p v0 v1 v2 : v3) (t u v : Q) : Prop :=
  eps <= t /\ 0 <= u /\ 0 <= v /\ u + v <= 1 /\ veq (above p t) (onTriangle v0 v1 v2 u v).
Definition hits (p : v3) (t : triangle) : Prop :=
  let '(a, b, c) := t in steepEnough a b c /\ exists t u v, meetsAt p a b c t u v.

(** all corners of all elements; the bounding box test *)
Definition inGridBox (p : v3) (els : list (list v3)) : Prop :=
  forall f, In f [vx; vy; vz] ->
    (exists e w, In e els /\ In w e /\ f w <= f p) /\ (exists e w, In e els /\ In w e /\ f p <= f w).
(** closed, consistently oriented surface: the reverse of every directed triangle edge is a
    directed edge of exactly one triangle *)
Definition v3eqb (a b : v3) : bool := Qeq_bool (vx a) (vx b) && Qeq_bool (vy a) (vy b) && Qeq_bool (vz a) (vz b).
Definition edgesOf (ts : list triangle) : list (v3 * v3) :=
  flat_map (fun t => let '(a, b, c) := t in [(a, b); (b, c); (c, a)]) ts.
Definition closedSurface (ts : list triangle) : Prop :=
  Forall (fun e => length (filter (fun e' => v3eqb (fst e) (snd e') && v3eqb (snd e) (fst e')) (edgesOf ts)) = 1%nat) (edgesOf ts).
(** the ray passes through the interior of every triangle it hits *)
Definition onlyInterior (p : v3) (ts : list triangle) : Prop :=
  forall a b c t u v, In (a, b, c) ts -> meetsAt p a b c t u v -> 0 < u /\ 0 < v /\ u + v < 1.
(** the triangles an element with corners in cyclic order consists of: itself, or the two on both sides of
    the diagonal a-c of a quadrilateral a b c d *)
Definition pieceOf (e : list v3) (t : triangle) : Prop :=
  match e with
  | [a; b; c] => t = (a, b, c)
  | [a; b; c; d] => t = (a, b, c) \/ t = (c, d, a)
  | _ => False
  end.
