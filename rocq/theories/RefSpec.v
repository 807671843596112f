(** What refinement should do. *)
From Coq Require Import Reals ZArith List Bool Arith.
Import ListNotations.
From Verif Require Import BoxModel RefModel.
Set Implicit Arguments.
Unset Strict Implicit.

(** ---- the combinatorics of grids ---- *)
Definition corners (t : tri) : list nat := let '(a, b, c) := t in [a; b; c].
(** the number of elements having all of the vertices l *)
Definition sharing (els : list tri) (l : list nat) : nat :=
  length (filter (fun t => forallb (fun a => existsb (Nat.eqb a) (corners t)) l) els).
(** arrays of a triangle grid: one domain index and one reference edge per element, three different corners *)
Definition wellFormed (g : view) : Prop :=
  length (v_domains g) = length (v_elements g) /\ length (v_ref g) = length (v_elements g) /\ (forall r, In r (v_ref g) -> r < 3) /\
  forall t, In t (v_elements g) -> NoDup (corners t) /\ forall a, In a (corners t) -> a < length (v_vertices g).
(** a surface: at most two elements meet in an edge, and no two elements have the same corners *)
Definition surface (g : view) : Prop :=
  (forall a b, a <> b -> sharing (v_elements g) [a; b] <= 2) /\ (forall a b c, NoDup [a; b; c] -> sharing (v_elements g) [a; b; c] <= 1).
(** without boundary *)
Definition closedSurface (g : view) : Prop :=
  surface g /\ forall a b, a <> b -> sharing (v_elements g) [a; b] = 0 \/ sharing (v_elements g) [a; b] = 2.

(** the edges of an element, the reference edge of element i *)
Definition isEdge (t : tri) (a b : nat) : Prop := a <> b /\ In a (corners t) /\ In b (corners t).
Definition referenceEdge (g : view) (i : nat) (a b : nat) : Prop :=
  exists t r, nth_error (v_elements g) i = Some t /\ nth_error (v_ref g) i = Some r /\
    match r with 0 => t = (a, b, corner t 2) | 1 => t = (b, corner t 1, a) | _ => t = (corner t 0, a, b) end.

(** ---- geometry ---- *)
Local Open Scope R_scope.
Definition vadd (p q : point) : point := (px p + px q, py p + py q, pz p + pz q).
Definition vsub (p q : point) : point := (px p - px q, py p - py q, pz p - pz q).
Definition vscale (a : R) (p : point) : point := (a * px p, a * py p, a * pz p).
Definition vcross (p q : point) : point := (py p * pz q - pz p * py q, pz p * px q - px p * pz q, px p * py q - py p * px q).
Definition vnorm2 (p : point) : R := px p * px p + py p * py p + pz p * pz p.
Definition at3 (vs : list point) (i : nat) : point := nth i vs (0, 0, 0).
(** x is a point of the triangle *)
Definition inTriangle (vs : list point) (t : tri) (x : point) : Prop :=
  exists a b c, 0 <= a /\ 0 <= b /\ 0 <= c /\ a + b + c = 1 /\
    x = vadd (vscale a (at3 vs (corner t 0))) (vadd (vscale b (at3 vs (corner t 1))) (vscale c (at3 vs (corner t 2)))).
(** twice the area, as a vector normal to the triangle *)
Definition normal (vs : list point) (t : tri) : point :=
  vcross (vsub (at3 vs (corner t 1)) (at3 vs (corner t 0))) (vsub (at3 vs (corner t 2)) (at3 vs (corner t 0))).
Definition rsum (l : list R) : R := fold_right Rplus 0 l.
(** the triangles ts tile the triangle t: together they cover just t, they are oriented like t, and their areas add up to its area *)
Definition tiles (vs : list point) (ts : list tri) (t : tri) : Prop :=
  (forall x, inTriangle vs t x <-> exists k, In k ts /\ inTriangle vs k x) /\
  exists shares, length shares = length ts /\ rsum shares = 1 /\
    forall i k a, nth_error ts i = Some k -> nth_error shares i = Some a -> 0 < a /\ normal vs k = vscale a (normal vs t).

(** a triangle with its reference edge: apex, and the ends of the reference edge *)
Definition shape := (point * point * point)%type.
Definition shapeOf (vs : list point) (t : tri) (r : nat) : shape :=
  match r with
  | 0%nat => (at3 vs (corner t 2), at3 vs (corner t 0), at3 vs (corner t 1))
  | 1%nat => (at3 vs (corner t 1), at3 vs (corner t 2), at3 vs (corner t 0))
  | _ => (at3 vs (corner t 0), at3 vs (corner t 1), at3 vs (corner t 2))
  end.
(** newest vertex bisection: halve the reference edge; the midpoint is the apex of both halves *)
Inductive bisection : shape -> shape -> Prop :=
| Whole : forall T, bisection T T
| Left : forall T a p q, bisection T (a, p, q) -> bisection T (vscale (1 / 2) (vadd p q), a, p)
| Right : forall T a p q, bisection T (a, p, q) -> bisection T (vscale (1 / 2) (vadd p q), q, a).
(** quality of a triangle: the squared area compared to the squared sum of the squares of the sides.  [atLeast c T T']:
    the quality of T' is at least c times that of T *)
Definition area2 (T : shape) : R := let '(a, p, q) := T in vnorm2 (vcross (vsub p a) (vsub q a)).
Definition sides (T : shape) : R := let '(a, p, q) := T in vnorm2 (vsub p a) + vnorm2 (vsub q a) + vnorm2 (vsub p q).
Definition qualityAtLeast (c : R) (T T' : shape) : Prop := c * area2 T * (sides T' * sides T') <= area2 T' * (sides T * sides T).

(** grids obtained by any number of refinements, whatever is marked *)
Inductive history : view -> view -> Prop :=
| Begin : forall g, history g g
| Further : forall g g' m g'', history g g' -> (forall i, In i m -> (i < length (v_elements g'))%nat) -> refines g' (Some m) (Returns g'') -> history g g''.

(** the edge of a and b was bisected *)
Definition bisected (els els' : list tri) (a b : nat) : Prop := a <> b /\ (0 < sharing els [a; b])%nat /\ sharing els' [a; b] = 0%nat.
(** a set of edges that contains the reference edges of the elements m, and the reference edge of every element of which it contains an edge *)
Definition closedSet (g : view) (m : list nat) (P : nat -> nat -> Prop) : Prop :=
  (forall a b, P a b -> P b a) /\
  (forall i a b, In i m -> referenceEdge g i a b -> P a b) /\
  (forall i t a b c d, nth_error (v_elements g) i = Some t -> isEdge t a b -> P a b -> referenceEdge g i c d -> P c d).
(** i was marked after the last call of clear_marks *)
Definition markedSinceClear (l : list markCall) (i : nat) : Prop := exists l1 l2, l = l1 ++ Mark i :: l2 /\ ~ In Clear l2.
