(** Specification for the accuracy options *)
From Coq Require Import Reals ZArith List Bool.
Import ListNotations.
From Verif Require Import Base ArrayModel QuadModel AccModel.
Set Implicit Arguments.

(** order on distances, infinity being largest *)
Definition dLe (a b : dist) : Prop :=
  match a, b with _, Inf => True | Inf, Fin _ => False | Fin x, Fin y => (x <= y)%R end.
(** [o] belongs to a bracket that covers [d], and no other bracket covering [d] is narrower *)
Definition narrowest (brackets : list bracket) (d : dist) (o : qopt) : Prop :=
  exists m, In (m, o) brackets /\ dLe d m /\
    forall m' o', In (m', o') brackets -> dLe d m' -> dLe m m'.
(** [o] belongs to the widest bracket *)
Definition widest (brackets : list bracket) (o : qopt) : Prop :=
  exists m, In (m, o) brackets /\ forall m' o', In (m', o') brackets -> dLe m' m.
(** at most 16 brackets, or pairwise different distances *)
Definition manageable (l : list bracket) : Prop := length l <= 16 \/ NoDup (map fst l).
(** the brackets the user asked for: order k up to distance k, the last order beyond *)
Definition requested (distances : list dist) (orders : list Z) (relative : bool) : list bracket :=
  combine (distances ++ [Inf]) (map (fun o => QOpt relative o) orders).
(** order in force: absolute value, or offset to the default *)
Definition inForce (o : qopt) (default order : Z) : Prop :=
  order = if q_relative o then (default + q_value o)%Z else q_value o.

(** geometry of elements *)
Local Open Scope R_scope.
Definition squaredDistance (p q : R * R * R) : R :=
  let '(x, y, z) := p in let '(u, v, w) := q in (x - u)^2 + (y - v)^2 + (z - w)^2.
(** [m] is the largest of the squared distances of the corners *)
Definition largestSquared (l : list (R * R * R)) (m : R) : Prop :=
  (forall p q, In p l -> In q l -> squaredDistance p q <= m) /\ exists p q, In p l /\ In q l /\ squaredDistance p q = m.
Definition coordSum (f : R * R * R -> R) (l : list (R * R * R)) : R := fold_right (fun p a => f p + a) 0 l.
