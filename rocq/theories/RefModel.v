(** Local refinement of grids: /repo/python/bempp/api/grid/grid_view.py (marks, reference edges, refine).
    A grid is what the view shows of it: the arrays [vertices], [elements], [domain_indices] and the reference edges.  The
    edges of Dune's index set are identified with unordered pairs of vertices; [grid_from_element_data] keeps the order of
    the vertices and elements it is given (C22).  Coordinates are real numbers.  A Python set of marked elements is a list
    without regard to order; [set.pop] may return any member. *)
From Coq Require Import Reals ZArith List Bool Arith.
Import ListNotations.
From Verif Require Import Base BoxModel AccModel.
Set Implicit Arguments.
Unset Strict Implicit.

(** grid_view.py: a column of [elements] (215-218); its i-th entry *)
Definition tri := (nat * nat * nat)%type.
Definition corner (t : tri) (i : nat) : nat := let '(a, b, c) := t in match i with 0 => a | 1 => b | _ => c end.
(** grid_view.py: the arrays vertices, elements, domain_indices (210-223) and reference_edges (145-172) *)
Record view := View { v_vertices : list point; v_elements : list tri; v_domains : list Z; v_ref : list nat }.

(** Dune's numbering of the edges of a triangle: sub_entity_index(element, j, 1) *)
Definition duneEdge (j : nat) : nat * nat := match j with 0 => (0, 1) | 1 => (0, 2) | _ => (1, 2) end.
(** an edge as an unordered pair of vertices (simplification: Dune numbers the edges, grid_view.py 23-75) *)
Definition edge := (nat * nat)%type.
Definition edgeOf (a b : nat) : edge := (Nat.min a b, Nat.max a b).
Definition edge_eqb (e f : edge) : bool := (fst e =? fst f) && (snd e =? snd f).
(** the j-th edge of an element (grid_view.py 188-198); columns of the arrays (273-290) *)
Definition elementEdge (t : tri) (j : nat) : edge := edgeOf (corner t (fst (duneEdge j))) (corner t (snd (duneEdge j))).
Definition element (g : view) (i : nat) : tri := nth i (v_elements g) (0, 0, 0).
Definition vertex (g : view) (i : nat) : point := nth i (v_vertices g) (0, 0, 0)%R.
Definition refEdge (g : view) (i : nat) : nat := nth i (v_ref g) 0.

(** reference_edges of a grid that was never refined: np.argmax of the lengths of the edges (145-172) *)
Definition edgeLength (vs : list point) (e : edge) : R := sqrt (sqDist (nth (fst e) vs (0, 0, 0)%R) (nth (snd e) vs (0, 0, 0)%R)).
Definition argmax3 (a b c : R) : nat :=
  if Rlt_dec a b then (if Rlt_dec b c then 2 else 1) else (if Rlt_dec a c then 2 else 0).
Definition freshReference (vs : list point) (t : tri) : nat :=
  argmax3 (edgeLength vs (elementEdge t 0)) (edgeLength vs (elementEdge t 1)) (edgeLength vs (elementEdge t 2)).
(** a grid made from arrays *)
Definition freshView (vs : list point) (els : list tri) (doms : list Z) : view := View vs els doms (map (freshReference vs) els).

(** edge_to_element_matrix.tolil().rows (23-75, 188-198, 279): the elements of an edge, in increasing order *)
Definition elementsAt (g : view) (e : edge) : list nat :=
  filter (fun i => existsb (fun j => edge_eqb (elementEdge (element g i) j) e) [0; 1; 2]) (seq 0 (length (v_elements g))).

(** ---- the loop of refine (273-313) ---- *)
(** [r_new]: the edges whose midpoints have been appended to new_vertices; [r_list] i j: refinement_list[i, j], None for -1 *)
Record rstate := RState { r_marked : list nat; r_list : nat -> nat -> option nat; r_number : nat; r_new : list edge }.
(** assignment to refinement_list[i, j] (287, 311) *)
Definition setEntry (l : nat -> nat -> option nat) (i j v : nat) : nat -> nat -> option nat :=
  fun i' j' => if (i' =? i) && (j' =? j) then Some v else l i' j'.
(** set.add (252, 304) *)
Definition addMark (x : nat) (l : list nat) : list nat := if existsb (Nat.eqb x) l then l else x :: l.
Definition isNone {A} (o : option A) : bool := match o with None => true | Some _ => false end.
(** one turn, for the element [i] that was popped *)
Definition turn (g : view) (s : rstate) (i : nat) : rstate :=
  let marked := filter (fun x => negb (x =? i)) (r_marked s) in
  if isNone (r_list s i (refEdge g i)) then
    let v := r_number s in
    let l1 := setEntry (r_list s) i (refEdge g i) v in
    let e := elementEdge (element g i) (refEdge g i) in
    let new := r_new s ++ [e] in
    let nb := elementsAt g e in
    if length nb =? 1 then RState marked l1 (S v) new
    else
      let other := if nth 0 nb 0 =? i then nth 1 nb 0 else nth 0 nb 0 in
      let marked' := if isNone (l1 other (refEdge g other)) then addMark other marked else marked in
      let l2 := fold_left (fun l j => if edge_eqb (elementEdge (element g other) j) e then setEntry l other j v else l) [0; 1; 2] l1 in
      RState marked' l2 (S v) new
  else RState marked (r_list s) (r_number s) (r_new s).
(** while len(marked) > 0: i = marked.pop() (282-283): pop returns any member *)
Inductive rstep (g : view) : rstate -> rstate -> Prop :=
| RStep : forall s i, In i (r_marked s) -> rstep g s (turn g s i).
Inductive rsteps (g : view) : nat -> rstate -> rstate -> Prop :=
| RDone : forall s, rsteps g 0 s s
| RMore : forall n s s' s'', rstep g s s' -> rsteps g n s' s'' -> rsteps g (S n) s s''.
(** 265-281: the initial arrays *)
Definition rstart (g : view) (marks : list nat) : rstate := RState marks (fun _ _ => None) (length (v_vertices g)) [].

(** ---- the new elements (323-404), with their reference edges ---- *)
Definition localVertices (j : nat) : nat * nat := match j with 0 => (0, 1) | 1 => (2, 0) | _ => (1, 2) end.   (* edge_to_local_vertices *)
Definition children (t : tri) (ref : nat) (l : nat -> option nat) : list (tri * nat) :=
  match l ref with
  | None => [(t, ref)]
  | Some m =>
    let v0 := corner t (fst (localVertices ref)) in
    let v1 := corner t (snd (localVertices ref)) in
    let opp := corner t (2 - ref) in
    let n1 := l ((ref + 1) mod 3) in
    let n2 := l ((ref + 2) mod 3) in
    (* 336-358 *)
    let first := match n1 with
                 | Some n => [((v0, m, n), 0); ((n, m, opp), 2)] ++ (if isNone n2 then [((opp, m, v1), 1)] else [])
                 | None => [] end in
    if negb (isNone n1) && isNone n2 then first else
    match n2 with
    | Some n => (* 359-381 *)
      first ++ [((v1, n, m), 1); ((n, opp, m), 2)] ++ (if isNone n1 then [((opp, v0, m), 0)] else [])
    | None => (* 382-396 *)
      first ++ [((m, opp, v0), 2); ((m, v1, opp), 2)]
    end
  end.
(** .5 * np.sum(edge.geometry.corners, axis=1) (292-293) *)
Definition midpoint (p q : point) : point := ((px p + px q) / 2, (py p + py q) / 2, (pz p + pz q) / 2)%R.
(** the elements made from element i (323-404) *)
Definition childrenOf (g : view) (s : rstate) (i : nat) : list (tri * nat) := children (element g i) (refEdge g i) (r_list s i).
(** 315-410 *)
Definition rebuilt (g : view) (s : rstate) : view :=
  let is := seq 0 (length (v_elements g)) in
  View (v_vertices g ++ map (fun e => midpoint (vertex g (fst e)) (vertex g (snd e))) (r_new s))
       (flat_map (fun i => map fst (childrenOf g s i)) is)
       (flat_map (fun i => map (fun _ => nth i (v_domains g) 0%Z) (childrenOf g s i)) is)
       (flat_map (fun i => map snd (childrenOf g s i)) is).

(** ---- the marks (239-256, 273) and refine() as a user sees them ---- *)
(** [_marked_list]: None, or the set of indices *)
Definition marks := option (list nat).
(** a call returns or raises *)
Inductive outcome (A : Type) := Returns (a : A) | Raises.
Arguments Raises {A}.
(** get_mark (239-244), mark (246-252), clear_marks (254-256) *)
Definition getMark (m : marks) (i : nat) : outcome bool :=
  match m with None => Returns false | Some _ => Raises end.        (* a set cannot be indexed: TypeError *)
Definition mark (m : marks) (i : nat) : marks := match m with None => Some [i] | Some l => Some (addMark i l) end.
Definition clearMarks (m : marks) : outcome marks := match m with None => Raises | Some _ => Returns (Some []) end.
(** a possible result of refine() *)
Definition refines (g : view) (m : marks) (o : outcome view) : Prop :=
  match m with
  | None => o = Raises                                              (* None.copy() *)
  | Some l => exists n s, rsteps g n (rstart g l) s /\ r_marked s = [] /\ o = Returns (rebuilt g s)
  end.
(** a sequence of calls of mark and clear_marks *)
Inductive markCall := Mark (i : nat) | Clear.
Definition afterCall (o : outcome marks) (c : markCall) : outcome marks :=
  match o with Raises => Raises | Returns m => match c with Mark i => Returns (mark m i) | Clear => clearMarks m end end.
Definition afterCalls (l : list markCall) : outcome marks := fold_left afterCall l (Returns None).
