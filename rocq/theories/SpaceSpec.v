(** Vocabulary for the properties of function spaces: what getGlobalDofs, global2localDofs,
    flatLocal2localDofs return. *)
From Coq Require Import Sorted.
From Verif Require Import Base SegModel SegSpec AsmModel SpaceModel.
Set Implicit Arguments.
Local Open Scope Z_scope.

(** segment s is a segment of grid g: same entity counts, excluded entities exist *)
Definition fits (g : sgrid) (s : segment) : Prop :=
  forall c, (c <= 2)%nat -> counts s c = gridCounts g c /\ forall x, In x (excluded s c) -> 0 <= x < gridCounts g c.

Section Views.
Context {K : star_ring}.
(** getGlobalDofs(element e)[i] = d *)
Definition globalDof (m : dofmap K) (e : Z) (i : nat) (d : Z) : Prop :=
  exists ds, zget (dm_l2g m) e = Some ds /\ nth_error ds i = Some d.
(** weight number i of getGlobalDofs(element e) *)
Definition dofWeight (m : dofmap K) (e : Z) (i : nat) (w : K) : Prop :=
  exists ws, zget (dm_w m) e = Some ws /\ nth_error ws i = Some w.
(** globalDofCount(), flatLocalDofCount() *)
Definition globalDofCount (m : dofmap K) : nat := length (dm_g2l m).
Definition flatLocalDofCount (m : dofmap K) : nat := length (dm_flat m).
(** local dof (e,i) is attached to global dof d by global2localDofs *)
Definition attachedTo (m : dofmap K) (d : nat) (x : ldof) : Prop :=
  exists l, nth_error (dm_g2l m) d = Some l /\ In x l.

(** getGlobalDofs returns -1 or an existing dof, with one weight per dof; global2localDofs is
    the inverse relation and lists nothing twice *)
Definition consistent (m : dofmap K) : Prop :=
  (forall e i d, globalDof m e i d -> d = -1 \/ 0 <= d < Z.of_nat (globalDofCount m)) /\
  (forall e i, (exists d, globalDof m e i d) <-> (exists w, dofWeight m e i w)) /\
  (forall d, (d < globalDofCount m)%nat -> exists l, nth_error (dm_g2l m) d = Some l /\ NoDup l /\
     forall e i, In (e, i) l <-> globalDof m e i (Z.of_nat d)).

Definition ldofLt (x y : ldof) : Prop := fst x < fst y \/ (fst x = fst y /\ (snd x < snd y)%nat).
(** the flat local dofs are the active (element, local dof) pairs, each once, in lexicographic order *)
Definition flatEnumerates (m : dofmap K) : Prop :=
  StronglySorted ldofLt (dm_flat m) /\
  forall e i, In (e, i) (dm_flat m) <-> exists d, globalDof m e i d /\ 0 <= d.
End Views.

(** vertices that carry a dof of the continuous P1 space *)
Definition usedVertex (g : sgrid) (s : segment) (strict : bool) (v : Z) : Prop :=
  holds s 2 v /\
  (strict = true -> exists e, In e (g_elts g) /\ holds s 0 (s_index e) /\ hasVertex e v).
(** every vertex of the grid belongs to an element *)
Definition noIsolatedVertex (g : sgrid) : Prop :=
  forall v, 0 <= v < g_n2 g -> exists e, In e (g_elts g) /\ hasVertex e v.
(** elements are iterated over in the order of their indices *)
Definition inIndexOrder (g : sgrid) : Prop :=
  map s_index (g_elts g) = zrange (g_n0 g).

(** (element, side) pairs lying on edge i *)
Definition sidesOn (g : sgrid) (i : Z) : list ldof :=
  flat_map (fun e => flat_map (fun k => match nth_error (map fst (s_facets e)) k with
                                        | Some f => if f =? i then [(s_index e, k)] else []
                                        | None => [] end) (seq 0 (length (s_facets e)))) (g_elts g).
(** triangles with three distinct edges *)
Definition triangles (g : sgrid) : Prop :=
  forall e, In e (g_elts g) -> length (s_facets e) = 3%nat /\ NoDup (map fst (s_facets e)).

(** the sides of edge i that an RWG function on that edge lives on *)
Definition activeSides (g : sgrid) (s : segment) (elementOn : bool) (i : Z) : list ldof :=
  filter (fun x => negb elementOn || match contains s 0 (fst x) with Some b => b | None => false end) (sidesOn g i).
(** the edges that carry an RWG dof *)
Definition rwgEdgeHasDof (g : sgrid) (s : segment) (put edgeOn elementOn : bool) (i : Z) : Prop :=
  (edgeOn = true -> holds s 1 i) /\
  (if put then (1 <= length (sidesOn g i))%nat else (2 <= length (sidesOn g i))%nat) /\
  (elementOn = true -> exists x, In x (sidesOn g i) /\ holds s 0 (fst x)).
