(** Vocabulary for the piecewise polynomial spaces: Lagrange nodes of a triangle. *)
From Verif Require Import Base SegModel SegSpec AsmModel SpaceModel SpaceSpec.
Set Implicit Arguments.
Local Open Scope Z_scope.

(** the nodes of order p of the reference triangle, row by row: (x, y) stands for the point
    (x/p, y/p); local dof i of an element sits at node i *)
Definition nodes (p : nat) : list (nat * nat) :=
  flat_map (fun y => map (fun x => (x, y)) (seq 0 (S p - y))) (seq 0 (S p)).
(** the corners of a triangle are (0,0), (1,0), (0,1): barycentric coordinates times p *)
Definition bary (p : nat) (n : nat * nat) : list nat := [p - fst n - snd n; fst n; snd n]%nat.
(** how much vertex v of the grid contributes to node n of element e: the position of the node is
    the sum over v of weightAt / p times the position of v *)
Definition weightAt (p : nat) (e : selt) (n : nat * nat) (v : Z) : nat :=
  list_sum (map (fun q => if fst q =? v then snd q else 0%nat) (combine (s_verts e) (bary p n))).
(** two nodes of two elements are the same point of the surface *)
Definition samePoint (p : nat) (e : selt) (n : nat * nat) (e' : selt) (n' : nat * nat) : Prop :=
  forall v, weightAt p e n v = weightAt p e' n' v.
(** the vertex, edge or element whose interior contains the node belongs to the segment *)
Definition nodeOn (s : segment) (p : nat) (e : selt) (n : nat * nat) : Prop :=
  let vertex k := holds s 2 (nth k (s_verts e) (-1)) in
  let edge k := holds s 1 (fst (nth k (s_facets e) (-1, []))) in
  match bary p n with
  | [_; 0; 0]%nat => vertex 0%nat
  | [0; _; 0]%nat => vertex 1%nat
  | [0; 0; _]%nat => vertex 2%nat
  | [_; _; 0]%nat => edge 0%nat
  | [_; 0; _]%nat => edge 1%nat
  | [0; _; _]%nat => edge 2%nat
  | _ => holds s 0 (s_index e)
  end.

(** a conforming triangulation: triangles with three different corners and three sides
    (0,1), (0,2), (1,2); sides are the same edge iff they have the same ends; no two
    triangles on the same corners *)
Definition triangulation (g : sgrid) : Prop :=
  (forall e, In e (g_elts g) -> exists a b c i j k,
     s_verts e = [a; b; c] /\ NoDup [a; b; c] /\ s_facets e = [(i, [a; b]); (j, [a; c]); (k, [b; c])]) /\
  (forall e e' f f', In e (g_elts g) -> In e' (g_elts g) -> In f (s_facets e) -> In f' (s_facets e') ->
     (fst f = fst f' <-> forall v, In v (snd f) <-> In v (snd f'))) /\
  (forall e e', In e (g_elts g) -> In e' (g_elts g) ->
     (forall v, In v (s_verts e) <-> In v (s_verts e')) -> e = e').
(** every edge belongs to an element *)
Definition noIsolatedEdge (g : sgrid) : Prop :=
  forall i, 0 <= i < g_n1 g -> exists e, In e (g_elts g) /\ hasFacet e i.

(** the value on local dof i of element e, with global dof d, of the function with coefficients u *)
Definition localCoefficient {K : star_ring} (u : nat -> K) (d : Z) : K :=
  if d <? 0 then zero else u (Z.to_nat d).
(** the spaces have the same elements and local dofs, and every function of the first is a function
    of the second: equal local coefficients on every element *)
Definition subspaceOf {K : star_ring} (m m' : dofmap K) : Prop :=
  (forall e i, (exists d, globalDof m e i d) <-> (exists d, globalDof m' e i d)) /\
  forall u : nat -> K, exists u', forall e i d d', globalDof m e i d -> globalDof m' e i d' ->
    localCoefficient u d = localCoefficient u' d'.
