(** Model of the triangle grid data container, barycentric refinement and structured grid
    factory.  /repo/lib/grid/bempp_grid/triangle_imp/bempp_grid_data_container_impl.hpp,
    /repo/lib/grid/concrete_grid.hpp, /repo/lib/grid/structured_grid_factory.hpp.
    Indices are unbounded naturals (unsigned int/int overflow is not modelled). *)
From Coq Require Import List Arith Bool.
Import ListNotations.

(** an element: its three node numbers *)
Definition elt := (nat * nat * nat)%type.
Definition enode (e : elt) (i : nat) : nat :=
  match i with 0 => fst (fst e) | 1 => snd (fst e) | _ => snd e end.

(** data_container_impl.hpp:36 *)
Definition localEdgeNodes (i : nat) : nat * nat :=
  match i with 0 => (0, 1) | 1 => (2, 0) | _ => (1, 2) end.

(** edges and nodes2EdgeIndexPair *)
Record estate := EState { es_edges : list (nat * nat); es_index : nat -> list (nat * nat) }.

(** 48-53 *)
Fixpoint lookupEdge (l : list (nat * nat)) (n1 : nat) : option nat :=
  match l with
  | [] => None
  | p :: rest => if n1 =? fst p then Some (snd p) else lookupEdge rest n1
  end.
(** 41-61; [None]: node number out of range, nodes2EdgeIndexPair[n0] out of bounds *)
Definition addSide (nnodes : nat) (st : estate) (a b : nat) : option (estate * nat) :=
  let '(n0, n1) := if a <? b then (b, a) else (a, b) in
  if n0 <? nnodes then
    match lookupEdge (es_index st n0) n1 with
    | Some k => Some (st, k)
    | None =>
      let k := length (es_edges st) in
      Some (EState (es_edges st ++ [(n0, n1)])
                   (fun n => if n =? n0 then es_index st n ++ [(n1, k)] else es_index st n), k)
    end
  else None.
Definition addElement (nnodes : nat) (st : estate) (e : elt) : option (estate * elt) :=
  let side i := (enode e (fst (localEdgeNodes i)), enode e (snd (localEdgeNodes i))) in
  match addSide nnodes st (fst (side 0)) (snd (side 0)) with
  | None => None
  | Some (st1, k0) =>
    match addSide nnodes st1 (fst (side 1)) (snd (side 1)) with
    | None => None
    | Some (st2, k1) =>
      match addSide nnodes st2 (fst (side 2)) (snd (side 2)) with
      | None => None
      | Some (st3, k2) => Some (st3, (k0, k1, k2))
      end
    end
  end.
(** 38-63 *)
Fixpoint addElements (nnodes : nat) (st : estate) (es : list elt) : option (estate * list elt) :=
  match es with
  | [] => Some (st, [])
  | e :: rest =>
    match addElement nnodes st e with
    | None => None
    | Some (st', t) =>
      match addElements nnodes st' rest with
      | None => None
      | Some (st'', ts) => Some (st'', t :: ts)
      end
    end
  end.

(** vector<vector<unsigned>>: push_back *)
Definition push (f : nat -> list nat) (k v : nat) : nat -> list nat :=
  fun n => if n =? k then f n ++ [v] else f n.
Definition pushAll (l : list (nat * nat)) : nat -> list nat :=
  fold_left (fun f p => push f (fst p) (snd p)) l (fun _ => []).

Record container := Container {
  c_nnodes : nat; c_elements : list elt; c_edges : list (nat * nat); c_e2e : list elt;
  c_edge2Elements : nat -> list nat; c_node2Elements : nat -> list nat; c_node2Edges : nat -> list nat;
  c_nodeIds : list nat; c_elementIds : list nat; c_edgeIds : list nat; c_idCounter : nat }.

(** the pushes of lines 78-90, in program order: (slot, value) *)
Definition pushes3 (ts : list elt) : list (nat * nat) :=
  flat_map (fun p => map (fun j => (enode (snd p) j, fst p)) [0; 1; 2])
           (combine (seq 0 (length ts)) ts).
Definition pushes2 (es : list (nat * nat)) : list (nat * nat) :=
  flat_map (fun p => [(fst (snd p), fst p); (snd (snd p), fst p)])
           (combine (seq 0 (length es)) es).

(** 15-115 for the first level; [idCounter] is m_idCounter on entry *)
Definition init (idCounter nnodes : nat) (elements : list elt) : option container :=
  match addElements nnodes (EState [] (fun _ => [])) elements with
  | None => None
  | Some (st, e2e) =>
    let edges := es_edges st in
    Some (Container nnodes elements edges e2e
      (pushAll (pushes3 e2e)) (pushAll (pushes3 elements)) (pushAll (pushes2 edges))
      (seq idCounter nnodes)
      (seq (idCounter + nnodes) (length elements))
      (seq (idCounter + nnodes + length elements) (length edges))
      (idCounter + nnodes + length elements + length edges))
  end.

(** ---- barycentric refinement: concrete_grid.hpp:209-358 ---- *)
(** 275-317: corners of the sons of element f with nodes v and edges e *)
Definition sons (V E : nat) (f : nat) (v e : elt) : list elt :=
  let b := V + E + f in
  let m i := V + enode e i in
  [ (enode v 0, b, m 1); (enode v 0, m 0, b);
    (enode v 1, b, m 0); (enode v 1, m 2, b);
    (enode v 2, b, m 2); (enode v 2, m 1, b) ].
(** 271-331: the columns 6 f + i of barycentricElementCorners; entity indices are
    taken in order (the loop writes to the columns of the entity's index). *)
Definition barycentricElements (c : container) : list elt :=
  let V := c_nnodes c in let E := length (c_edges c) in
  flat_map (fun p => sons V E (fst p) (fst (snd p)) (snd (snd p)))
           (combine (seq 0 (length (c_elements c))) (combine (c_elements c) (c_e2e c))).
(** 281-282 *)
Definition barycentricDomains (domains : list nat) : list nat := flat_map (fun d => repeat d 6) domains.
(** 345-353: [insertionIndex j] is elementInsertionIndex of the entity with index j; the
    son map is a 2-dimensional array, here a function (father, son) -> last value written *)
Definition sonMap (nSons : nat) (insertionIndex : nat -> nat) : nat -> nat -> option nat :=
  fold_left (fun m j =>
      let i := insertionIndex j in
      fun f s => if (f =? i / 6) && (s =? i mod 6) then Some j else m f s)
    (seq 0 nSons) (fun _ _ => None).

(** ---- concrete_grid.hpp:47-64 ---- [None]: out of bounds.  [order] lists the entities'
    (index, insertion index) pairs in iteration order. *)
Fixpoint updN (l : list nat) (i v : nat) : option (list nat) :=
  match l, i with
  | [], _ => None
  | _ :: t, O => Some (v :: t)
  | h :: t, S j => match updN t j v with Some t' => Some (h :: t') | None => None end
  end.
Fixpoint permuteLoop (domainIndices : list nat) (order : list (nat * nat)) (output : list nat) : option (list nat) :=
  match order with
  | [] => Some output
  | (idx, ins) :: rest =>
    match nth_error domainIndices ins with
    | None => None
    | Some d => match updN output idx d with
                | None => None
                | Some o => permuteLoop domainIndices rest o
                end
    end
  end.
Definition permuteInsertionDomainIndices (domainIndices : list nat) (order : list (nat * nat)) : option (list nat) :=
  permuteLoop domainIndices order (repeat 0 (length domainIndices)).

(** ---- structured grids, dim = 2: structured_grid_factory.hpp ---- *)
(** MultiIndex::operator++ (81-95) with limits (n, m) *)
Definition miNext (n m : nat) (p : nat * nat) : nat * nat :=
  let '(a, b) := p in
  if a + 1 <? n then (a + 1, b)
  else if b + 1 <? m then (0, b + 1) else (0, 0).
(** the values taken by a MultiIndex in a loop of [count] iterations *)
Fixpoint miLoop (n m : nat) (count : nat) (p : nat * nat) : list (nat * nat) :=
  match count with O => [] | S k => p :: miLoop n m k (miNext n m p) end.
(** cycle() (99-104) = n * m iterations starting from (0,0) *)
Definition miAll (n m : nat) : list (nat * nat) := miLoop n m (n * m) (0, 0).

(** 258-282: the two permutations of (0,1); the corners 1 and 2 of the second are swapped.
    [off] are the unit offsets (142-151). *)
Definition cellTriangles (off : nat * nat) (idx : nat * nat) : list elt :=
  let base := fst idx * fst off + snd idx * snd off in
  let c1 := base + fst off in let c2 := c1 + snd off in
  let d1 := base + snd off in let d2 := d1 + fst off in
  [ (base, c1, c2); (base, d2, d1) ].
Definition unitOffsets (nvx nvy : nat) : nat * nat := (1, 1 * nvx).
(** 224-289 *)
Definition simplexElements (nx ny : nat) : list elt :=
  flat_map (cellTriangles (unitOffsets (nx + 1) (ny + 1))) (miAll nx ny).
(** 179-209: cornersTemplate[i] sums the offsets of the bits of i *)
Definition cubeElements (nx ny : nat) : list (list nat) :=
  let off := unitOffsets (nx + 1) (ny + 1) in
  map (fun idx => map (fun c => c + (fst idx * fst off + snd idx * snd off))
                      [0; fst off; snd off; fst off + snd off])
      (miAll nx ny).
(** 108-138: multi-indices of the vertices in insertion order; the position is affine in
    the multi-index *)
Definition structuredVertices (nx ny : nat) : list (nat * nat) := miAll (nx + 1) (ny + 1).
