(** Model of the dof numbering of the piecewise polynomial spaces of arbitrary order and of the
    Python constructors that build them.
    /repo/lib/space/piecewise_polynomial_continuous_scalar_space.cpp (P),
    /repo/lib/space/piecewise_polynomial_discontinuous_scalar_space.cpp (DP),
    /repo/lib/grid/grid_segment.cpp 357-377, /repo/cython/bempp/core/space/space.pyx 280-323,
    /repo/python/bempp/api/space/space.py 296-352.
    Grids, segments and dof maps as in SegModel and SpaceModel; [None] is an exception or an
    access outside a vector.  Bounding boxes and reference points of dofs are not modelled. *)
From Verif Require Import Base SegModel AsmModel SpaceModel.
Set Implicit Arguments.
Local Open Scope Z_scope.

(** the loop variables a, a+1, .., a+n-1 *)
Definition zseq (a : Z) (n : nat) : list Z := map (fun k => a + Z.of_nat k) (seq 0 n).

(** P 507-508, 541-542, 571-572, DP 401-402, 424-425, 471-472: ldofy * (order + 1) - ldofy * (ldofy - 1) / 2 *)
Definition rowStart (p y : Z) : Z := y * (p + 1) - y * (y - 1) / 2.
(** the local indices of the three corners: P 407, 424, 441; DP 327-372 *)
Definition cornerIndex (p : Z) (k : nat) : Z :=
  match k with O => 0 | S O => p | _ => (p + 1) * (p + 2) / 2 - 1 end.
(** of dof number l on edge k: P 476, 505-508, 539-542; DP 381-382, 400-402, 423-425 *)
Definition edgeIndex (p : Z) (k : nat) (l : Z) : Z :=
  match k with O => l | S O => rowStart p l | _ => rowStart p l + (p - l) end.
(** the ends of edge k as local vertex numbers: P 467, 496, 530 *)
Definition edgeEnds (k : nat) : nat * nat :=
  match k with O => (0, 1)%nat | S O => (0, 2)%nat | _ => (1, 2)%nat end.
(** of the bubbles, in the order of the double loop: P 567-572, DP 469-472 *)
Definition bubbleIndices (p : Z) : list Z :=
  flat_map (fun y => map (fun x => rowStart p y + x) (zseq 1 (Z.to_nat (p - 1 - y)))) (zseq 1 (Z.to_nat (p - 1))).

(** subEntityIndex(element, k, codim) *)
Definition vertexOf (e : selt) (k : nat) : option Z := nth_error (s_verts e) k.
Definition facetOf (e : selt) (k : nat) : option Z := option_map fst (nth_error (s_facets e) k).

(** ---- continuous ---- *)
(** one assignment to globalDofs: index, and the dof or -1 ([None]) *)
Notation putp := (Z * option Z)%type.

(** P 335-338: numbers of the vertices marked 1 *)
Fixpoint numberOnes (l : list Z) (count : Z) : list Z * Z :=
  match l with
  | [] => ([], count)
  | x :: r => let (y, c) := if x =? 1 then (count, count + 1) else (x, count) in
              let (r', c') := numberOnes r c in (y :: r', c')
  end.
(** P 339-352: starting dofs of entities with that many dofs *)
Fixpoint startDofs (l : list Z) (count : Z) : list Z * Z :=
  match l with
  | [] => ([], count)
  | n :: r => let (y, c) := if 0 <? n then (count, count + n) else (n, count) in
              let (r', c') := startDofs r c in (y :: r', c')
  end.

(** P 295-320: bubbleStartingGlobalDofs, noElementAdjacentToVertexIsOnSegment, ..ToEdge.. *)
Record pscan := PScan { ps_bubble : list Z; ps_nov : list bool; ps_noe : list bool }.
Definition pScanElement (s : segment) (strict : bool) (bubbles bubblesQuad : Z) (st : pscan) (e : selt) : option pscan :=
  let n := length (s_verts e) in
  if negb ((n =? 3)%nat || (n =? 4)%nat) then None else
  c <- contains s 0 (s_index e) ;;
  if c : bool then
    b <- zset (ps_bubble st) (s_index e) (if (n =? 3)%nat then bubbles else bubblesQuad) ;;
    if strict then
      vs <- clearAll (ps_nov st) (s_verts e) ;;
      es <- clearAll (ps_noe st) (map fst (s_facets e)) ;;
      Some (PScan b vs es)
    else Some (PScan b (ps_nov st) (ps_noe st))
  else b <- zset (ps_bubble st) (s_index e) (-1) ;; Some (PScan b (ps_nov st) (ps_noe st)).

(** P 403-457: the three corners *)
Definition cornerPut (p : Z) (vertexDofs : list Z) (contained : bool) (e : selt) (k : nat) : option putp :=
  v <- vertexOf e k ;;
  d <- (if contained then zget vertexDofs v else Some (-1)) ;;
  Some (cornerIndex p k, if 0 <=? d then Some d else None).
(** for (ldof = 1, gdof = start; gdof != end; ++ldof, gdof += step) *)
Fixpoint edgeLoop (fuel : nat) (index : Z -> Z) (l gdof stop step : Z) : option (list putp) :=
  match fuel with
  | O => None
  | S f => if gdof =? stop then Some []
           else r <- edgeLoop f index (l + 1) (gdof + step) stop step ;; Some ((index l, Some gdof) :: r)
  end.
(** P 459-560, edge k *)
Definition edgePuts (p : Z) (edgeDofs : list Z) (contained : bool) (e : selt) (k : nat) : option (list putp) :=
  f <- facetOf e k ;;
  a <- vertexOf e (fst (edgeEnds k)) ;;
  b <- vertexOf e (snd (edgeEnds k)) ;;
  d <- zget edgeDofs f ;;
  if (0 <=? d) && contained then
    let '(start, stop, step) :=
      if a <? b then (d, d + (p - 1), 1) else (d - 1 + (p - 1), d - 1, -1) in
    edgeLoop (Z.to_nat p) (edgeIndex p k) 1 start stop step
  else Some (map (fun l => (edgeIndex p k l, None)) (zseq 1 (Z.to_nat (p - 1)))).
(** P 562-586; gdof advances with every pass of the inner loop *)
Definition bubblePuts (p : Z) (bubbleDofs : list Z) (e : selt) : option (list putp) :=
  d <- zget bubbleDofs (s_index e) ;;
  Some (map (fun x => (fst x, if 0 <=? d then Some (d + Z.of_nat (snd x)) else None))
            (combine (bubbleIndices p) (seq 0 (length (bubbleIndices p))))).

(** all assignments of one triangle, in program order *)
Definition elementPuts (s : segment) (strict : bool) (p : Z) (vd ed bd : list Z) (e : selt) : option (list putp) :=
  c <- (if strict then contains s 0 (s_index e) else Some true) ;;
  c0 <- cornerPut p vd c e 0 ;; c1 <- cornerPut p vd c e 1 ;; c2 <- cornerPut p vd c e 2 ;;
  es <- (if 2 <=? p then
           e0 <- edgePuts p ed c e 0 ;; e1 <- edgePuts p ed c e 1 ;; e2 <- edgePuts p ed c e 2 ;;
           Some (e0 ++ e1 ++ e2) else Some []) ;;
  bs <- (if 3 <=? p then bubblePuts p bd e else Some []) ;;
  Some (c0 :: c1 :: c2 :: es ++ bs).
(** acc(globalDofs, ldof) = gdof; acc(m_global2localDofs, gdof).push_back(..); ++m_flatLocalDofCount *)
Fixpoint runPuts (e : Z) (ps : list putp) (st : list Z * list (list ldof) * Z) : option (list Z * list (list ldof) * Z) :=
  match ps with
  | [] => Some st
  | (i, o) :: r =>
    let '(dofs, g2l, flat) := st in
    match o with
    | Some d => dofs' <- zset dofs i d ;; g2l' <- zpush g2l d (e, Z.to_nat i) ;; runPuts e r (dofs', g2l', flat + 1)
    | None => dofs' <- zset dofs i (-1) ;; runPuts e r (dofs', g2l, flat)
    end
  end.
(** P 376-595; quadrilaterals: runtime_error *)
Fixpoint polyLoop (puts : selt -> option (list putp)) (localCount : nat) (es : list selt)
    (st : list (list Z) * list (list ldof) * Z) : option (list (list Z) * list (list ldof) * Z) :=
  match es with
  | [] => Some st
  | e :: r =>
    let '(l2g, g2l, flat) := st in
    if (length (s_verts e) =? 3)%nat then
      ps <- puts e ;;
      t <- runPuts (s_index e) ps (repeat 0 localCount, g2l, flat) ;;
      let '(dofs, g2l', flat') := t in
      l2g' <- zset l2g (s_index e) dofs ;;
      polyLoop puts localCount r (l2g', g2l', flat')
    else None
  end.
(** P 119-160 (order check), 238-616.  The second component is m_flatLocalDofCount.  Weights are
    those of Space::getGlobalDofs (space.cpp 206-211): all ones. *)
Definition polyAssign {K : star_ring} (g : sgrid) (s : segment) (strict : bool) (p : Z) : option (dofmap K * Z) :=
  if negb ((1 <=? p) && (p <=? 10)) then None else
  let elementCount := length (g_elts g) in
  if (elementCount =? 0)%nat then Some (DofMap [] [] [] [], 0) else
  vmarks <- oseq (map (fun i => c <- contains s 2 i ;; Some (if c : bool then 1 else -1)) (zrange (g_n2 g))) ;;
  emarks <- oseq (map (fun i => c <- contains s 1 i ;; Some (if c : bool then p - 1 else -1)) (zrange (g_n1 g))) ;;
  sc <- ofold (pScanElement s strict (Z.max 0 ((p - 1) * (p - 2) / 2)) (Z.max 0 ((p - 1) * (p - 1)))) (g_elts g)
         (PScan (repeat 0 elementCount) (repeat true (Z.to_nat (g_n2 g))) (repeat true (Z.to_nat (g_n1 g)))) ;;
  let vmarks' := if strict then dropFlagged (ps_nov sc) vmarks else vmarks in
  let emarks' := if strict then dropFlagged (ps_noe sc) emarks else emarks in
  let (vd, c1) := numberOnes vmarks' 0 in
  let (ed, c2) := startDofs emarks' c1 in
  let (bd, c3) := startDofs (ps_bubble sc) c2 in
  let localCount := Z.to_nat ((p + 1) * (p + 2) / 2) in
  r <- polyLoop (elementPuts s strict p vd ed bd) localCount (g_elts g)
         (repeat [] elementCount, repeat [] (Z.to_nat c3), 0) ;;
  let '(l2g, g2l, flat) := r in
  Some (DofMap l2g (map (fun ds => repeat one (length ds)) l2g) g2l (initializeLocal2FlatLocalDofMap l2g), flat).

(** ---- discontinuous ---- *)
(** DP 327-372: elementContained && (!(dofMode & REFERENCE_POINT_ON_SEGMENT) || contains(vertex)) *)
Definition dpCorner (s : segment) (ref contained : bool) (p : Z) (e : selt) (k : nat) : option (Z * bool) :=
  v <- vertexOf e k ;;
  b <- (if contained then (if ref then contains s 2 v else Some true) else Some false) ;;
  Some (cornerIndex p k, b).
(** DP 374-439 *)
Definition dpEdge (s : segment) (ref contained : bool) (p : Z) (e : selt) (k : nat) : option (list (Z * bool)) :=
  f <- facetOf e k ;;
  b <- (if contained then (if ref then contains s 1 f else Some true) else Some false) ;;
  Some (map (fun l => (edgeIndex p k l, b)) (zseq 1 (Z.to_nat (p - 1)))).
(** DP 282-283, 309-503 for one triangle: local indices in program order, and whether they get a dof *)
Definition dpPuts (s : segment) (ref elem : bool) (p : Z) (e : selt) : option (list (Z * bool)) :=
  contained <- (if elem then contains s 0 (s_index e) else Some true) ;;
  if p =? 0 then b <- contains s 0 (s_index e) ;; Some [(0, b : bool)] else
  c0 <- dpCorner s ref contained p e 0 ;; c1 <- dpCorner s ref contained p e 1 ;; c2 <- dpCorner s ref contained p e 2 ;;
  es <- (if 2 <=? p then
           e0 <- dpEdge s ref contained p e 0 ;; e1 <- dpEdge s ref contained p e 1 ;; e2 <- dpEdge s ref contained p e 2 ;;
           Some (e0 ++ e1 ++ e2) else Some []) ;;
  bs <- (if 3 <=? p then b <- contains s 0 (s_index e) ;; Some (map (fun i => (i, b : bool)) (bubbleIndices p)) else Some []) ;;
  Some (c0 :: c1 :: c2 :: es ++ bs).
(** acc(globalDofs, ldof) = globalDofCount; m_global2localDofs.push_back(..); ++globalDofCount *)
Fixpoint runDP (e : Z) (ps : list (Z * bool)) (st : list Z * list (list ldof)) : option (list Z * list (list ldof)) :=
  match ps with
  | [] => Some st
  | (i, b) :: r =>
    let (dofs, g2l) := st in
    dofs' <- zset dofs i (if b : bool then Z.of_nat (length g2l) else -1) ;;
    runDP e r (dofs', if b : bool then g2l ++ [[(e, Z.to_nat i)]] else g2l)
  end.
(** DP 275-506; nothing is filled in for quadrilaterals *)
Fixpoint dpLoop (puts : selt -> option (list (Z * bool))) (p : Z) (es : list selt)
    (st : list (list Z) * list (list ldof)) : option (list (list Z) * list (list ldof)) :=
  match es with
  | [] => Some st
  | e :: r =>
    let (l2g, g2l) := st in
    t <- (if (length (s_verts e) =? 3)%nat
          then ps <- puts e ;; runDP (s_index e) ps (repeat 0 (Z.to_nat ((p + 1) * (p + 2) / 2)), g2l)
          else Some (repeat 0 (Z.to_nat ((p + 1) * (p + 1))), g2l)) ;;
    l2g' <- zset l2g (s_index e) (fst t) ;;
    dpLoop puts p r (l2g', snd t)
  end.
(** DP 92-142 (checks of dofMode and order), 238-513; m_flatLocalDofCount = globalDofCount *)
Definition polyDPAssign {K : star_ring} (g : sgrid) (s : segment) (ref elem : bool) (p : Z) : option (dofmap K * Z) :=
  if negb (ref || elem) || negb ((0 <=? p) && (p <=? 10)) then None else
  r <- dpLoop (dpPuts s ref elem p) p (g_elts g) (repeat [] (length (g_elts g)), []) ;;
  let (l2g, g2l) := r in
  Some (DofMap l2g (map (fun ds => repeat one (length ds)) l2g) g2l (initializeLocal2FlatLocalDofMap l2g),
        Z.of_nat (length g2l)).

(** ---- the Python side ---- *)
(** grid_segment.cpp 370-377 AdaptiveGridSegmentFactory::update *)
Definition segmentOf (g : sgrid) (domains : option (list Z)) (closed : bool) : segment :=
  match domains with
  | None => wholeGrid g
  | Some D => if closed then closedDomain g D else openDomain g D
  end.
(** space.pyx 290-306: kind "P"; order 1 has a class of its own.  Without domains strictlyOnSegment
    is false. *)
Definition coreP {K : star_ring} (g : sgrid) (p : Z) (domains : option (list Z)) (closed strict : bool) : option (dofmap K) :=
  if negb ((1 <=? p) && (p <=? 10)) then None else
  let strict' := match domains with None => false | Some _ => strict end in
  if p =? 1 then p1Assign g (segmentOf g domains closed) strict'
  else option_map fst (polyAssign g (segmentOf g domains closed) strict' p).
(** space.pyx 280-288, 307-323: kind "DP"; without domains dofMode is REFERENCE_POINT_ON_SEGMENT *)
Definition coreDP {K : star_ring} (g : sgrid) (p : Z) (domains : option (list Z)) (closed ref elem : bool) : option (dofmap K) :=
  if negb (ref || elem) then None else
  if negb ((0 <=? p) && (p <=? 10)) then None else
  if p =? 0 then p0Assign g (segmentOf g domains closed)
  else let (ref', elem') := match domains with None => (true, false) | Some _ => (ref, elem) end in
       option_map fst (polyDPAssign g (segmentOf g domains closed) ref' elem' p).
(** space.py 296-352: ContinuousPolynomialSpace; first component the space, second its
    discontinuous_space and super_space *)
Definition continuousPolynomialSpace {K : star_ring} (g : sgrid) (p : Z) (domains : option (list Z))
    (closed strict : bool) : option (dofmap K * dofmap K) :=
  m <- coreP g p domains closed strict ;;
  d <- (if negb closed then coreDP g p domains closed false true
        else coreDP g p domains closed true strict) ;;
  Some (m, d).
