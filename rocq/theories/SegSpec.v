From Coq Require Import List ZArith Sorted.
Import ListNotations.
From Verif Require Import SegModel.
Local Open Scope Z_scope.

(** the excluded sets are std::sets of non-negative indices *)
Definition wellFormed (s : segment) : Prop :=
  forall c, Sorted Z.lt (excluded s c) /\ forall x, In x (excluded s c) -> 0 <= x.

(** element e has facet / vertex number i *)
Definition hasFacet (e : selt) (i : Z) : Prop := In i (map fst (s_facets e)).
Definition hasVertex (e : selt) (i : Z) : Prop := In i (s_verts e).
Definition inDomain (domains : list Z) (e : selt) : Prop := In (s_dom e) domains.

(** element indices are 0 .. n-1, each once; subentity indices are in range; the
    vertices of a facet are vertices of the element *)
Definition gridOk (g : sgrid) : Prop :=
  NoDup (map s_index (g_elts g)) /\
  (forall e, In e (g_elts g) -> 0 <= s_index e < g_n0 g) /\
  (forall e i, In e (g_elts g) -> hasFacet e i -> 0 <= i < g_n1 g) /\
  (forall e i, In e (g_elts g) -> hasVertex e i -> 0 <= i < g_n2 g) /\
  (forall e f i, In e (g_elts g) -> In f (s_facets e) -> In i (snd f) -> hasVertex e i).

(** number of (domain element, side) pairs lying on facet i *)
Definition incidence (g : sgrid) (domains : list Z) (i : Z) : nat :=
  length (filter (Z.eqb i)
    (flat_map (fun e => if smem (s_dom e) domains then map fst (s_facets e) else []) (g_elts g))).

(** "segment s contains entity i of codimension c" as the public contains() reports it *)
Definition holds (s : segment) (c : nat) (i : Z) : Prop := contains s (Z.of_nat c) i = Some true.
