(** Vocabulary for Buffa-Christiansen spaces: oriented surfaces, the barycentric refinement, fluxes. *)
From Coq Require Import Reals.
From Verif Require Import Base ComplexR SegModel SegSpec AsmModel SpaceModel SpaceSpec PolySpec VecModel VecSpec BaryModel BarySpec BcModel.
Set Implicit Arguments.
Unset Strict Implicit.

(** the side of a triangle (numbered as in [sideFrom], [sideTo]) that ends, starts at corner k *)
Definition sideInto (k : nat) : nat := match k with 0 => 1 | 1 => 0 | _ => 2 end%nat.
Definition sideOutOf (k : nat) : nat := match k with 0 => 0 | 1 => 2 | _ => 1 end%nat.
(** (e, k): the triangle e at its corner k.  Going round that corner anticlockwise one gets from x to y *)
Definition turnsInto (x y : selt * nat) : Prop :=
  exists i, sideIs (fst x) (sideInto (snd x)) i /\ sideIs (fst y) (sideOutOf (snd y)) i.
(** the edge belongs to one triangle only *)
Definition boundaryEdge (g : sgrid) (i : Z) : Prop := length (sidesOn g i) = 1%nat.
(** l lists the triangles at vertex v in anticlockwise order; [open]: v lies on the boundary, the list starts and ends there *)
Definition fanAt (g : sgrid) (v : Z) (open : bool) (l : list (selt * nat)) : Prop :=
  l <> [] /\ NoDup l /\ (forall e k, In (e, k) l <-> In e (g_elts g) /\ nth_error (s_verts e) k = Some v) /\
  (forall n x y, nth_error l n = Some x -> nth_error l (S n) = Some y -> turnsInto x y) /\
  (forall x y, nth_error l 0 = Some x -> nth_error l (length l - 1) = Some y ->
     if open then (exists i, sideIs (fst x) (sideOutOf (snd x)) i /\ boundaryEdge g i) /\
                  (exists i, sideIs (fst y) (sideInto (snd y)) i /\ boundaryEdge g i)
     else turnsInto y x).
(** an oriented surface: at most two triangles meet in an edge, and the triangles at each vertex form one fan *)
Definition orientedSurface (g : sgrid) : Prop :=
  manifold g /\ forall v, (0 <= v < g_n2 g)%Z -> exists open l, fanAt g v open l.

(** vertices of son s of e, numbered as they are inserted: old vertices, midpoints of the edges, centres of the elements (C23) *)
Definition sonVertices (g : sgrid) (e : selt) (s : nat) : list Z :=
  let v k := nth k (s_verts e) 0%Z in
  let m k := (g_n2 g + nth k (map fst (s_facets e)) 0)%Z in
  let b := (g_n2 g + g_n1 g + s_index e)%Z in
  match s with
  | 0 => [v 0%nat; b; m 1%nat] | 1 => [v 0%nat; m 0%nat; b]
  | 2 => [v 1%nat; b; m 0%nat] | 3 => [v 1%nat; m 2%nat; b]
  | 4 => [v 2%nat; b; m 2%nat] | _ => [v 2%nat; m 1%nat; b] end%nat.
(** fg is the barycentric refinement of g; its element number son (s_index e) s is son s of e *)
Definition refinement (g fg : sgrid) (son : Z -> nat -> Z) : Prop :=
  gridOk fg /\ triangulation fg /\ sonNumbering (g_n0 g) son /\ length (g_elts fg) = (6 * length (g_elts g))%nat /\
  forall e s, In e (g_elts g) -> (s < 6)%nat ->
    exists t, In t (g_elts fg) /\ s_index t = son (s_index e) s /\ s_verts t = sonVertices g e s.

Local Open Scope R_scope.
(** the coefficients of one basis function *)
Definition unitVector (n d : nat) : list R := map (fun k => if Nat.eqb k d then 1 else 0) (seq 0 n).
(** f has the flux x out of T through side k *)
Definition fluxThrough (f : R * R -> option vec) (T : tri) (k : nat) (x : R) : Prop :=
  forall q nu, onSide k q -> outward T k nu -> exists v, f q = Some v /\ dot v nu * sideLength T k = x.

(** the number of triangles at v *)
Definition trianglesAt (g : sgrid) (v : Z) : nat := length (filter (fun e => if in_dec Z.eq_dec v (s_verts e) then true else false) (g_elts g)).
Definition onBoundary (g : sgrid) (v : Z) : Prop := exists i e f, boundaryEdge g i /\ In e (g_elts g) /\ In f (s_facets e) /\ fst f = i /\ In v (snd f).
(** side s of e runs round e from v to w *)
Definition sideRuns (e : selt) (s : nat) (v w : Z) : Prop :=
  nth_error (s_verts e) (match s with 0 => 0 | 1 => 2 | _ => 1 end%nat) = Some v /\ nth_error (s_verts e) (match s with 0 => 1 | 1 => 0 | _ => 2 end%nat) = Some w.
(** 1 at the end v0 of the edge, -1 at the end v1 *)
Definition endSign (v0 v1 v : Z) : R := if (v =? v0)%Z then 1 else if (v =? v1)%Z then -1 else 0.
(** P t k is the flux out of the fine triangle t through its side k.  No flux is lost across an edge *)
Definition conformingFluxes (fg : sgrid) (P : selt -> nat -> R) : Prop :=
  forall t k t' k' z, In t (g_elts fg) -> In t' (g_elts fg) -> sideIs t k z -> sideIs t' k' z -> (t, k) <> (t', k') -> P t k + P t' k' = 0.
(** The fluxes of the dual function of edge i with ends v0, v1.  Each fine triangle t touches one vertex v of g, its first
    vertex; the midpoint of edge i is vertex g_n2 g + i of fg. *)
Definition dualFunction (g fg : sgrid) (i v0 v1 : Z) (P : selt -> nat -> R) : Prop :=
  conformingFluxes fg P /\
  forall t v, In t (g_elts fg) -> nth_error (s_verts t) 0 = Some v ->
    (* the charge 1 of v0 is shared equally by the triangles at v0, and -1 at v1; no charge at the boundary of g *)
    (~ onBoundary g v -> P t 0%nat + P t 1%nat + P t 2%nat = endSign v0 v1 v * (1 / (2 * INR (trianglesAt g v)))) /\
    (onBoundary g v -> P t 0%nat + P t 1%nat + P t 2%nat = 0) /\
    (* it flows from the triangles at v0 to those at v1 through the two dual half edges of edge i *)
    (In (g_n2 g + i)%Z (s_verts t) -> P t 2%nat = endSign v0 v1 v * (1 / 2)) /\
    (~ In (g_n2 g + i)%Z (s_verts t) -> P t 2%nat = 0) /\
    (* nowhere else *)
    (v <> v0 -> v <> v1 -> forall k, (k < 3)%nat -> P t k = 0) /\
    forall k z ends, nth_error (s_facets t) k = Some (z, ends) ->
      (* none crosses edge i *)
      (~ onBoundary g v -> In v ends -> In (g_n2 g + i)%Z ends -> P t k = 0) /\
      (* at the boundary of g it comes in through the two boundary edges of v *)
      (boundaryEdge fg z -> P t k = - (endSign v0 v1 v * (if Nat.eqb k 0 then (INR (trianglesAt g v) - 1) / INR (trianglesAt g v) else 1 / INR (trianglesAt g v)))).
