(** Buffa-Christiansen spaces: /repo/lib/space/buffa_christiansen_vector_space.cpp, rotated_buffa_christiansen_vector_space.cpp
    (assignDofsImpl), /repo/lib/fiber/{,rotated_}buffa_christiansen_shapeset.hpp.
    The grid is [g], its barycentric refinement [fg] (both [sgrid]s: elements in iteration order, edges and vertices by index),
    [son e i] the entry (e, i) of the son map, [order] the order in which the coarse edges are iterated over.
    Loops that fill several vectors are split, one loop per vector.  Bounding boxes are not modelled, nor
    facesAdjacentToCoarseEdges, fineEdgeMap and lowestIndicesOfElementsAdjacentToFineEdges, which nothing reads.
    Numbers are reals. *)
From Coq Require Import Reals.
From Verif Require Import Base ComplexR SegModel AsmModel SpaceModel VecModel BaryModel.
Set Implicit Arguments.
Unset Strict Implicit.
Local Open Scope R_scope.

(** a value; an exception; an index outside a vector or the use of an uninitialised entry; not finished within the given number
    of iterations *)
Inductive outcome (A : Type) := Done (a : A) | Threw | Outside | Running.
Arguments Done {A}. Arguments Threw {A}. Arguments Outside {A}. Arguments Running {A}.
Definition bindO {A B} (x : outcome A) (f : A -> outcome B) : outcome B :=
  match x with Done a => f a | Threw => Threw | Outside => Outside | Running => Running end.
(** an access to a vector *)
Definition access {A B} (x : option A) (f : A -> outcome B) : outcome B := match x with Some a => f a | None => Outside end.
Fixpoint foldO {A S} (f : S -> A -> outcome S) (l : list A) (s : S) : outcome S :=
  match l with [] => Done s | a :: r => bindO (f s a) (foldO f r) end.

(** v[i] = x, one after the other *)
Definition writes {A} (ws : list (Z * A)) (l : list A) : option (list A) := ofold (fun l w => zset l (fst w) (snd w)) ws l.
(** entries of vectors and matrices that are not initialised: [None] *)
Definition zread {A} (l : list (option A)) (i : Z) : option A := x <- zget l i ;; x.

(** buffa_christiansen_vector_space.cpp 318-321 *)
Definition vertexCounts (g : sgrid) : option (list Z) :=
  ofold (fun cnt e => vs <- vertices3 e ;; ofold (fun cnt i => n <- zget cnt i ;; zset cnt i (n + 1)%Z) vs cnt)
        (g_elts g) (repeat 0%Z (Z.to_nat (g_n2 g))).
Section Space.
Variables (g fg : sgrid) (son : Z -> nat -> Z) (order : list Z).

(** 322-355: for side i of a coarse element: the son and the corners *)
Definition sonOfSide (i : nat) : nat := match i with 0 => 2 | 1 => 0 | _ => 4 end%nat.
Definition firstCorner (i : nat) : nat := match i with 0 => 1 | 1 => 0 | _ => 2 end%nat.
Definition secondCorner (i : nat) : nat := match i with 0 => 0 | 1 => 2 | _ => 1 end%nat.
(** the writes of one element to (lowest = true: fineFacesonEdge(., 0), false: fineFacesonEdge(., 1)), coarseVerticesonEdge(., 0 / 1) *)
Definition sideWrites {A} (low : list Z) (lowest : bool) (val : selt -> nat -> option A) (e : selt) : option (list (Z * option A)) :=
  es <- edges3 e ;;
  ls <- oseq (map (fun i =>
     ed <- nth_error es i ;; l <- zget low ed ;;
     if Bool.eqb (l =? s_index e)%Z lowest then v <- val e i ;; Some [(ed, Some v)] else Some []) (seq 0 3)) ;;
  Some (concat ls).
Definition sideTable {A} (low : list Z) (lowest : bool) (val : selt -> nat -> option A) : option (list (option A)) :=
  ws <- oseq (map (sideWrites low lowest val) (g_elts g)) ;; writes (concat ws) (repeat None (Z.to_nat (g_n1 g))).
Definition faceOf (e : selt) (i : nat) : option Z := Some (son (s_index e) (sonOfSide i)).
Definition vertex0Of (e : selt) (i : nat) : option Z := nth_error (s_verts e) (firstCorner i).
Definition vertex1Of (e : selt) (i : nat) : option Z := nth_error (s_verts e) (secondCorner i).
(** 358-369 *)
Definition boundaryVertices (cnt : list Z) (v0 v1 : list (option Z)) : option (list bool) :=
  ofold (fun b i => c <- zget cnt i ;;
           if (c =? 1)%Z then x <- zread v0 i ;; y <- zread v1 i ;; b' <- zset b x true ;; zset b' y true else Some b)
        order (repeat false (Z.to_nat (g_n2 g))).

(** 371-408; edge k, vertex k of a fine element *)
Definition fedge (t : selt) (k : nat) : option Z := option_map fst (nth_error (s_facets t) k).
Definition fvert (t : selt) (k : nat) : option Z := nth_error (s_verts t) k.
Definition nF : nat := length (g_elts fg).
Definition edgesToFaces : option (list Z) :=
  ws <- oseq (map (fun t => a <- fedge t 0 ;; Some (a, s_index t)) (g_elts fg)) ;; writes ws (repeat (-1)%Z (Z.to_nat (g_n1 fg))).
Definition facesToEdges : option (list Z) :=
  ws <- oseq (map (fun t => a <- fedge t 1 ;; Some (s_index t, a)) (g_elts fg)) ;; writes ws (repeat (-1)%Z nF).
(** for edge 0, 1, 2 that belongs to one fine element: the vertex it leads to, the vertex it comes from *)
Definition toVertex (k : nat) : nat := match k with 0 => 1 | 1 => 0 | _ => 2 end%nat.
Definition fromVertex (k : nat) : nat := match k with 0 => 0 | 1 => 2 | _ => 1 end%nat.
Definition boundaryWrites (fcnt : list Z) (f : selt -> nat -> option (Z * Z)) (t : selt) : option (list (Z * Z)) :=
  ls <- oseq (map (fun k => ed <- fedge t k ;; c <- zget fcnt ed ;; if (c =? 1)%Z then w <- f t k ;; Some [w] else Some []) (seq 0 3)) ;;
  Some (concat ls).
Definition boundaryEdgesToVertices (fcnt : list Z) : option (list Z) :=
  ws <- oseq (map (boundaryWrites fcnt (fun t k => ed <- fedge t k ;; v <- fvert t (toVertex k) ;; Some (ed, v))) (g_elts fg)) ;;
  writes (concat ws) (repeat (-1)%Z (Z.to_nat (g_n1 fg))).
(** resized to faceCountFineGrid *)
Definition verticesToBoundaryEdges (fcnt : list Z) : option (list Z) :=
  ws <- oseq (map (boundaryWrites fcnt (fun t k => ed <- fedge t k ;; v <- fvert t (fromVertex k) ;; Some (v, ed))) (g_elts fg)) ;;
  writes (concat ws) (repeat (-1)%Z nF).
(** 410-421 *)
Definition nextFaces (e2f f2e b2v v2b : list Z) : option (list Z) :=
  oseq (map (fun i => a <- zget f2e i ;; n <- zget e2f a ;;
                      if (n =? -1)%Z then v <- zget b2v a ;; b <- zget v2b v ;; zget e2f b else Some n) (zrange (Z.of_nat nF))).
(** 423-437, m_putDofsOnBoundaries is false (initialize() throws otherwise) *)
Fixpoint numberDofs (cnt : list Z) (count : Z) : list Z * Z :=
  match cnt with
  | [] => ([], count)
  | c :: r => if (c =? 1)%Z then let (l, n) := numberDofs r count in ((-1)%Z :: l, n)
              else let (l, n) := numberDofs r (count + 1) in (count :: l, n)
  end.

(** one column of m_fineFaceCoeffs[face] *)
Record col := Col { k0 : R; k1 : R; k2 : R }.
Record bcstate := BcState { bc_cols : list (list col); bc_l2g : list (list Z); bc_w : list (list R); bc_g2l : list (list ldof) }.
(** ffCoeff.conservativeResize(3, ffCoeff.cols() + 1) and the assignments to the new column *)
Definition addColumn (st : bcstate) (face : Z) (c : col) : option bcstate :=
  cs <- zpush (bc_cols st) face c ;; Some (BcState cs (bc_l2g st) (bc_w st) (bc_g2l st)).
(** ffCoeff(., ffCoeff.cols() - 1) = . *)
Definition setColumn (st : bcstate) (face : Z) (f : col -> col) : option bcstate :=
  l <- zget (bc_cols st) face ;;
  match rev l with
  | [] => None
  | c :: r => cs <- zset (bc_cols st) face (rev r ++ [f c]) ;; Some (BcState cs (bc_l2g st) (bc_w st) (bc_g2l st))
  end.
(** m_local2globalDofs[faceNum].push_back ... *)
Definition pushDof (st : bcstate) (face glDof : Z) (w : R) : option bcstate :=
  l <- zget (bc_cols st) face ;;
  a <- zpush (bc_l2g st) face glDof ;; b <- zpush (bc_w st) face w ;; c <- zpush (bc_g2l st) glDof (face, (length l - 1)%nat) ;;
  Some (BcState (bc_cols st) a b c).

Section Walk.
(** [check]: the space throws on a bad mesh (the rotated one does not); target: fineFacesonEdge(ent1Number, .);
    onB: vertexOnBoundary; n: N; w: the weight, 1 at the first end, -1 at the second *)
Variables (check : bool) (next e2f f2e : list Z) (glDof : Z) (n : Z) (onB : bool) (target : Z) (w : R).
(** the loop: 488-531 and 555-598 *)
Fixpoint walk (fuel : nat) (i : Z) (face : Z) (past : bool) (st : bcstate) : outcome bcstate :=
  if (face =? target)%Z then Done st
  else match fuel with
  | O => Running
  | S fuel' =>
    if (check && (i <? - n * 3)%Z)%bool then Threw
    else
      (* Before *)
      access (if onB then (if past then Some ((IZR n - 1) / IZR n, true)
                           else a <- zget f2e face ;; x <- zget e2f a ;; Some (-1 / IZR n, (x =? -1)%Z))
              else Some (- IZR i * 1 / (2 * IZR n), past)) (fun '(b, past') =>
      access (st1 <- setColumn st face (fun c => Col (k0 c) b (k2 c)) ;; pushDof st1 face glDof w) (fun st2 =>
      access (zget next face) (fun face' =>
      (* After *)
      access (addColumn st2 face' (Col (if onB then (if past' then - (IZR n - 1) / IZR n else 1 / IZR n) else IZR i * 1 / (2 * IZR n)) 0 0)) (fun st3 =>
      walk fuel' (i - 1) face' past' st3))))
  end.
(** 474-487, 488-541 *)
Definition walkEnd (fuel : nat) (st : bcstate) : outcome bcstate :=
  access (zget next target) (fun face =>
  (* bottom *)
  access (addColumn st face (Col (if onB then - (IZR n - 2) / (2 * IZR n) else 0) 0 (1 / 2))) (fun st1 =>
  bindO (walk fuel (n - 1) face false st1) (fun st2 =>
  (* top *)
  access (st3 <- setColumn st2 target (fun c => Col (k0 c) (if onB then (IZR n - 2) / (2 * IZR n) else k1 c) (1 / 2)) ;; pushDof st3 target glDof w) Done))).
End Walk.
End Space.

(** the vectors that the loop over the coarse edges reads *)
Record bctables := BcTables { t_next : list Z; t_e2f : list Z; t_f2e : list Z; t_dofs : list Z; t_count : Z; t_n : list Z; t_onB : list bool;
  t_face0 : list (option Z); t_face1 : list (option Z); t_v0 : list (option Z); t_v1 : list (option Z) }.
Definition bcTables (g fg : sgrid) (son : Z -> nat -> Z) (order : list Z) : option bctables :=
  cnt <- faceCounts g ;; fcnt <- faceCounts fg ;; low <- lowestElements g ;; ns <- vertexCounts g ;;
  f0 <- sideTable g low true (faceOf son) ;; f1 <- sideTable g low false (faceOf son) ;;
  v0 <- sideTable g low true vertex0Of ;; v1 <- sideTable g low true vertex1Of ;;
  onB <- boundaryVertices g order cnt v0 v1 ;;
  e2f <- edgesToFaces fg ;; f2e <- facesToEdges fg ;; b2v <- boundaryEdgesToVertices fg fcnt ;; v2b <- verticesToBoundaryEdges fg fcnt ;;
  nx <- nextFaces fg e2f f2e b2v v2b ;;
  let (dofs, count) := numberDofs cnt 0 in
  Some (BcTables nx e2f f2e dofs count ns onB f0 f1 v0 v1).
(** 463-605: one coarse edge *)
Definition edgeStep (check : bool) (fuel : nat) (t : bctables) (st : bcstate) (i : Z) : outcome bcstate :=
  access (zget (t_dofs t) i) (fun d =>
  if (d =? -1)%Z then Done st else
  access (x0 <- zread (t_v0 t) i ;; f0 <- zread (t_face0 t) i ;; n0 <- zget (t_n t) x0 ;; b0 <- zget (t_onB t) x0 ;; Some (f0, n0, b0)) (fun '(f0, n0, b0) =>
  bindO (walkEnd check (t_next t) (t_e2f t) (t_f2e t) d n0 b0 f0 1 fuel st) (fun st1 =>
  access (x1 <- zread (t_v1 t) i ;; f1 <- zread (t_face1 t) i ;; n1 <- zget (t_n t) x1 ;; b1 <- zget (t_onB t) x1 ;; Some (f1, n1, b1)) (fun '(f1, n1, b1) =>
  walkEnd check (t_next t) (t_e2f t) (t_f2e t) d n1 b1 f1 (-1) fuel st1)))).
(** 626-642: fine elements without function *)
Definition padRow {A} (x : A) (l : list A) (cs : list col) : list A := match cs with [] => l ++ [x] | _ => l end.
Record bcspace := BcSpace { bc_map : dofmap Rsr; bc_coeffs : list (list col) }.
Definition finish (st : bcstate) : bcspace :=
  let l2g := map (fun p => padRow (-1)%Z (fst p) (snd p)) (combine (bc_l2g st) (bc_cols st)) in
  let w := map (fun p => padRow 1 (fst p) (snd p)) (combine (bc_w st) (bc_cols st)) in
  BcSpace (@DofMap Rsr l2g w (bc_g2l st) (initializeLocal2FlatLocalDofMap l2g))
          (map (fun cs => padRow (Col 0 0 0) cs cs) (bc_cols st)).
Definition bcAssign (check : bool) (g fg : sgrid) (son : Z -> nat -> Z) (order : list Z) (fuel : nat) : outcome bcspace :=
  access (bcTables g fg son order) (fun t =>
  let nf := length (g_elts fg) in
  bindO (foldO (edgeStep check fuel t) order (BcState (repeat [] nf) (repeat [] nf) (repeat [] nf) (repeat [] (Z.to_nat (t_count t))))) (fun st =>
  Done (finish st))).

(** ---- shapesets: buffa_christiansen_shapeset.hpp 44-116, rotated: the same with the Nedelec functions; evaluation as in VecModel ---- *)
Definition kOf (c : col) (j : nat) : R := match j with O => k0 c | S O => k1 c | _ => k2 c end.
Definition bcValue (c : col) (q : R * R) (comp : nat) : R :=
  fold_left (fun acc j => acc + kOf c j * rtValue j q comp) (seq 0 3) 0.
Definition rbcValue (c : col) (q : R * R) (comp : nat) : R :=
  fold_left (fun acc j => acc + kOf c j * ncValue j q comp) (seq 0 3) 0.
Definition evaluateBc (pos : Z -> vec) (b : bcspace) (u : list R) (t : selt) (q : R * R) : option vec :=
  T <- cornersOf pos t ;; cs <- localCoefficients (bc_map b) u (s_index t) ;; ks <- zget (bc_coeffs b) (s_index t) ;;
  sumShapes (fun k => hdivValue T (bcValue (nth k ks (Col 0 0 0)) q)) cs (length ks).
Definition evaluateRbc (pos : Z -> vec) (b : bcspace) (u : list R) (t : selt) (q : R * R) : option vec :=
  T <- cornersOf pos t ;; cs <- localCoefficients (bc_map b) u (s_index t) ;; ks <- zget (bc_coeffs b) (s_index t) ;;
  sumShapes (fun k => hcurlValue T (rbcValue (nth k ks (Col 0 0 0)) q)) cs (length ks).
