(** Model of the dof numbering of function spaces on two-dimensional grids.
    /repo/lib/space: piecewise_linear_continuous_scalar_space.cpp,
    piecewise_constant_scalar_space.cpp, piecewise_linear_discontinuous_scalar_space.cpp,
    rwg_vector_space.cpp, space_helper.cpp, space.cpp.
    A grid view is the [sgrid] of SegModel: the elements in iteration order with their index,
    edges (codim 1) and vertices (codim 2) by index.  One-dimensional grids (gridDim == 1) are
    not modelled.  [None] everywhere: an exception, or acc()/operator[] outside a vector. *)
From Verif Require Import Base SegModel AsmModel.
Set Implicit Arguments.

Definition obind {A B} (x : option A) (f : A -> option B) : option B :=
  match x with Some a => f a | None => None end.
Notation "x <- e ;; k" := (obind e (fun x => k)) (at level 60, e at next level, right associativity).

(** /repo/lib/common/acc.hpp: v[i], v[i] = x with an int index *)
Definition zget {A} (l : list A) (i : Z) : option A := if (i <? 0)%Z then None else nth_error l (Z.to_nat i).
Definition zset {A} (l : list A) (i : Z) (v : A) : option (list A) :=
  if (i <? 0)%Z then None else upd l (Z.to_nat i) v.
(** vector<vector<LocalDof>>: v[i].push_back(x) *)
Definition zpush {A} (l : list (list A)) (i : Z) (x : A) : option (list (list A)) :=
  r <- zget l i ;; zset l i (r ++ [x]).

(** LocalDof(entityIndex, dofIndex) *)
Notation ldof := (Z * nat)%type.
(** m_local2globalDofs, m_local2globalDofWeights, m_global2localDofs, m_flatLocal2localDofs *)
Record dofmap (K : star_ring) := DofMap {
  dm_l2g : list (list Z); dm_w : list (list K); dm_g2l : list (list ldof); dm_flat : list ldof }.
Arguments DofMap {K}. Arguments dm_l2g {K}. Arguments dm_w {K}. Arguments dm_g2l {K}. Arguments dm_flat {K}.

(** ---- space_helper.cpp:190-201 initializeLocal2FlatLocalDofMap ---- *)
Definition flatOfElement (e : nat) (dofs : list Z) : list ldof :=
  flat_map (fun dof => match nth_error dofs dof with
                       | Some g => if (0 <=? g)%Z then [(Z.of_nat e, dof)] else []
                       | None => [] end) (seq 0 (length dofs)).
Definition initializeLocal2FlatLocalDofMap (l2g : list (list Z)) : list ldof :=
  flat_map (fun e => flatOfElement e (nth e l2g [])) (seq 0 (length l2g)).

(** ---- the element loop shared by the continuous P1 and the RWG space
    (piecewise_linear_continuous_scalar_space.cpp:213-246, rwg_vector_space.cpp:268-333):
    [dofOf e i] is the global dof index the body computes for local dof i of e (or fails),
    [wOf e i] the weight it stores *)
Fixpoint pushDofs (e : Z) (i : nat) (dofs : list Z) (g2l : list (list ldof)) : option (list (list ldof)) :=
  match dofs with
  | [] => Some g2l
  | d :: r => if (0 <=? d)%Z
              then g' <- zpush g2l d (e, i) ;; pushDofs e (S i) r g'
              else pushDofs e (S i) r g2l
  end.
Fixpoint oseq {A} (l : list (option A)) : option (list A) :=
  match l with
  | [] => Some []
  | x :: r => a <- x ;; r' <- oseq r ;; Some (a :: r')
  end.
Fixpoint elementLoop {K : star_ring} (dofsOf : selt -> option (list Z)) (wOf : selt -> option (list K))
    (es : list selt) (l2g : list (list Z)) (w : list (list K)) (g2l : list (list ldof))
    : option (list (list Z) * list (list K) * list (list ldof)) :=
  match es with
  | [] => Some (l2g, w, g2l)
  | e :: r =>
    ds <- dofsOf e ;; ws <- wOf e ;;
    l2g' <- zset l2g (s_index e) ds ;;
    w' <- zset w (s_index e) ws ;;
    g2l' <- pushDofs (s_index e) 0 ds g2l ;;
    elementLoop dofsOf wOf r l2g' w' g2l'
  end.
(** the vectors are cleared and resized to elementCount and globalDofCount_ before the loop *)
Definition assignByEntity {K : star_ring} (dofsOf : selt -> option (list Z)) (wOf : selt -> option (list K))
    (elementCount globalDofCount : nat) (es : list selt) : option (dofmap K) :=
  r <- elementLoop dofsOf wOf es (repeat [] elementCount) (repeat [] elementCount) (repeat [] globalDofCount) ;;
  let '(l2g, w, g2l) := r in
  Some (DofMap l2g w g2l (initializeLocal2FlatLocalDofMap l2g)).

(** consecutive numbering of the entries that are still 0
    (piecewise_linear_continuous_scalar_space.cpp:200-203) *)
Fixpoint numberZeros (l : list Z) (count : Z) : list Z * Z :=
  match l with
  | [] => ([], count)
  | x :: r => if (x =? 0)%Z then let (r', c') := numberZeros r (count + 1) in (count :: r', c')
              else let (r', c') := numberZeros r count in (x :: r', c')
  end.

(** ---- continuous P1 ---- *)
(** piecewise_linear_continuous_scalar_space.cpp:174-192: one pass over the elements *)
Fixpoint clearAll (l : list bool) (vs : list Z) : option (list bool) :=
  match vs with
  | [] => Some l
  | v :: r => l' <- zset l v false ;; clearAll l' r
  end.
Fixpoint p1Scan (s : segment) (es : list selt) (noAdj cont : list bool) : option (list bool * list bool) :=
  match es with
  | [] => Some (noAdj, cont)
  | e :: r =>
    c <- contains s 0 (s_index e) ;;
    cont' <- zset cont (s_index e) c ;;
    noAdj' <- (if c : bool then clearAll noAdj (s_verts e) else Some noAdj) ;;
    p1Scan s r noAdj' cont'
  end.
(** 195-198 *)
Definition dropFlagged (flags : list bool) (marks : list Z) : list Z :=
  map (fun p => if fst p : bool then (-1)%Z else snd p) (combine flags marks).
(** 160-253.  markExcludedEntities resizes nothing: the vector has vertexCount entries
    (SegModel's version creates it with the segment's count, which is the same number). *)
Definition p1Assign {K : star_ring} (g : sgrid) (s : segment) (strict : bool) : option (dofmap K) :=
  let elementCount := length (g_elts g) in
  marks <- markExcludedEntities s 2 (-1) ;;
  sc <- (if strict
         then p1Scan s (g_elts g) (repeat true (Z.to_nat (g_n2 g))) (repeat false elementCount)
         else Some ([], [])) ;;
  let '(noAdj, cont) := sc in
  let marks' := if strict then dropFlagged noAdj marks else marks in
  let (dofOfVertex, count) := numberZeros marks' 0 in
  assignByEntity
    (fun e => c <- (if strict then zget cont (s_index e) else Some true) ;;
              oseq (map (fun v => if c : bool then zget dofOfVertex v else Some (-1)%Z) (s_verts e)))
    (fun e => Some (repeat one (length (s_verts e))))
    elementCount (Z.to_nat count) (g_elts g).

(** ---- piecewise constants ---- *)
(** piecewise_constant_scalar_space.cpp:160-194; g2l grows by push_back, its size is the counter *)
Fixpoint p0Loop {K : star_ring} (s : segment) (es : list selt) (l2g : list (list Z)) (w : list (list K))
    (g2l : list (list ldof)) : option (list (list Z) * list (list K) * list (list ldof)) :=
  match es with
  | [] => Some (l2g, w, g2l)
  | e :: r =>
    c <- contains s 0 (s_index e) ;;
    let (d, g2l') := if c : bool then (Z.of_nat (length g2l), g2l ++ [[(s_index e, 0)]]) else ((-1)%Z, g2l) in
    l2g' <- zset l2g (s_index e) [d] ;;
    w' <- zset w (s_index e) [one] ;;
    p0Loop s r l2g' w' g2l'
  end.
(** 202-205, 223-231: flatLocalDofCount() is the number of elements and
    flatLocal2localDofs(i) = LocalDof(i, 0) *)
Definition p0Assign {K : star_ring} (g : sgrid) (s : segment) : option (dofmap K) :=
  let n := length (g_elts g) in
  r <- p0Loop s (g_elts g) (repeat [] n) (repeat [] n) [] ;;
  let '(l2g, w, g2l) := r in
  Some (DofMap l2g w g2l (map (fun i => (Z.of_nat i, 0)) (seq 0 n))).

(** ---- discontinuous P1 ---- *)
(** piecewise_linear_discontinuous_scalar_space.cpp:162-178: the loop over the corners of e *)
Fixpoint dp1Corners (s : segment) (strict : bool) (e : Z) (i : nat) (vs : list Z) (g2l : list (list ldof))
    : option (list Z * list (list ldof)) :=
  match vs with
  | [] => Some ([], g2l)
  | v :: r =>
    c <- (if strict then contains s 0 e else contains s 2 v) ;;
    let (d, g2l') := if c : bool then (Z.of_nat (length g2l), g2l ++ [[(e, i)]]) else ((-1)%Z, g2l) in
    t <- dp1Corners s strict e (S i) r g2l' ;;
    Some (d :: fst t, snd t)
  end.
Fixpoint dp1Loop {K : star_ring} (s : segment) (strict : bool) (es : list selt) (l2g : list (list Z)) (w : list (list K))
    (g2l : list (list ldof)) : option (list (list Z) * list (list K) * list (list ldof)) :=
  match es with
  | [] => Some (l2g, w, g2l)
  | e :: r =>
    t <- dp1Corners s strict (s_index e) 0 (s_verts e) g2l ;;
    l2g' <- zset l2g (s_index e) (fst t) ;;
    w' <- zset w (s_index e) (repeat one (length (s_verts e))) ;;
    dp1Loop s strict r l2g' w' (snd t)
  end.
(** 130-186 *)
Definition dp1Assign {K : star_ring} (g : sgrid) (s : segment) (strict : bool) : option (dofmap K) :=
  let n := length (g_elts g) in
  r <- dp1Loop s strict (g_elts g) (repeat [] n) (repeat [] n) [] ;;
  let '(l2g, w, g2l) := r in
  Some (DofMap l2g w g2l (initializeLocal2FlatLocalDofMap l2g)).

(** ---- RWG ---- *)
(** std::numeric_limits<int>::max() *)
Definition INT_MAX : Z := 2147483647.
(** rwg_vector_space.cpp:206-209 vectors indexed by edge: lowest element index, number of
    adjacent element sides, "no adjacent element is in the segment" *)
Record rwgScan := RwgScan { rs_low : list Z; rs_adj : list Z; rs_no : list bool }.
(** 219-231: one local edge of one element; dofMode & EDGE_ON_SEGMENT is [edgeOn] *)
Definition rwgEdge (s : segment) (edgeOn : bool) (idx : Z) (elementContained : bool) (st : rwgScan) (edge : Z)
    : option rwgScan :=
  c <- contains s 1 edge ;;
  if edgeOn && negb c then Some st else
  n <- zget (rs_adj st) edge ;;
  adj' <- zset (rs_adj st) edge (n + 1)%Z ;;
  no' <- (if elementContained then zset (rs_no st) edge false else Some (rs_no st)) ;;
  l <- zget (rs_low st) edge ;;
  low' <- zset (rs_low st) edge (Z.min l idx) ;;
  Some (RwgScan low' adj' no').
Fixpoint ofold {A B} (f : A -> B -> option A) (l : list B) (a : A) : option A :=
  match l with [] => Some a | x :: r => a' <- f a x ;; ofold f r a' end.
(** 213-233 *)
Definition rwgElement (s : segment) (edgeOn : bool) (st : rwgScan) (e : selt) : option rwgScan :=
  c <- contains s 0 (s_index e) ;;
  ofold (rwgEdge s edgeOn (s_index e) c) (map fst (s_facets e)) st.
(** 237-246 *)
Fixpoint rwgNumber (put elementOn : bool) (adj : list Z) (no : list bool) (count : Z) : list Z * Z :=
  match adj, no with
  | a :: adj', n :: no' =>
    if (a =? 0)%Z || (negb put && (a <? 2)%Z) || (elementOn && n)
    then let (r, c) := rwgNumber put elementOn adj' no' count in ((-1)%Z :: r, c)
    else let (r, c) := rwgNumber put elementOn adj' no' (count + 1) in (count :: r, c)
  | _, _ => ([], count)
  end.
(** 193-353.  [len i] is the volume (length) of edge i; edgeIt visits the edges of an element in
    the order of their local numbers.  The bounding boxes (264-266, 325-330) are modelled in
    BoxModel. *)
Definition rwgAssign {K : star_ring} (g : sgrid) (len : Z -> K) (s : segment) (put edgeOn elementOn : bool)
    : option (dofmap K) :=
  if negb (edgeOn || elementOn) then None else   (* constructor, 91-94: invalid dofMode *)
  let elementCount := length (g_elts g) in
  let edgeCount := Z.to_nat (g_n1 g) in
  sc <- ofold (rwgElement s edgeOn) (g_elts g)
         (RwgScan (repeat INT_MAX edgeCount) (repeat 0%Z edgeCount) (repeat true edgeCount)) ;;
  let (dofOfEdge, count) := rwgNumber put elementOn (rs_adj sc) (rs_no sc) 0 in
  assignByEntity
    (fun e => if negb (length (s_facets e) =? 3) then None else   (* quadrilaterals: runtime_error *)
              c <- (if elementOn then contains s 0 (s_index e) else Some true) ;;
              oseq (map (fun f => if c : bool then zget dofOfEdge (fst f) else Some (-1)%Z) (s_facets e)))
    (fun e => oseq (map (fun f => l <- zget (rs_low sc) (fst f) ;;
                                  Some (if (l =? s_index e)%Z then len (fst f) else opp (len (fst f))))
                        (s_facets e)))
    elementCount (Z.to_nat count) (g_elts g).

(** ---- the interface used by assembly ---- *)
(** space.cpp:206-211, rwg_vector_space.cpp:436-444: getGlobalDofs with weights, and
    space.cpp:225-234, rwg_vector_space.cpp:446-463: global2localDofs with weights *)
Definition withWeights {K : star_ring} (m : dofmap K) (l : list ldof) : option (list (nat * nat * K)) :=
  oseq (map (fun x => ws <- zget (dm_w m) (fst x) ;; w <- nth_error ws (snd x) ;;
                      Some (Z.to_nat (fst x), snd x, w)) l).
Definition spaceOf {K : star_ring} (m : dofmap K) : space K :=
  Space (length (dm_g2l m))
        (map (fun p => combine (fst p) (snd p)) (combine (dm_l2g m) (dm_w m)))
        (fun d => l <- nth_error (dm_g2l m) d ;; withWeights m l).

(** ---- space.cpp:50-92 constructGlobalToFlatLocalDofsMappingVectors: rows, cols, values ---- *)
Definition mappingCols (l2g : list (list Z)) : list Z :=
  flat_map (fun ds => filter (fun g => (0 <=? g)%Z) ds) l2g.
Definition mappingTriplets {K : star_ring} (m : dofmap K) : option (list (nat * Z * K)) :=
  let cols := mappingCols (dm_l2g m) in
  if length cols =? length (dm_flat m)
  then Some (combine (combine (seq 0 (length cols)) cols) (repeat one (length cols)))
  else None.
(** 95-121: the sparse matrix; setFromTriplets adds up triplets at the same position and requires
    positions inside the matrix *)
Definition mappingMatrix {K : star_ring} (m : dofmap K) : option (mat K) :=
  ts <- mappingTriplets m ;;
  if forallb (fun t => let '(r, c, _) := t in (0 <=? c)%Z) ts
  then addAll (zeroMat (length (dm_flat m)) (length (dm_g2l m)))
              (map (fun t => let '(r, c, v) := t in (r, Z.to_nat c, v)) ts)
  else None.
