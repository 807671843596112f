(** Function spaces on the barycentric refinement that represent the functions of the coarse grid, and
    constants on dual cells.  /repo/lib/space/piecewise_linear_{continuous,discontinuous}_scalar_space_barycentric.cpp,
    piecewise_constant_scalar_space_barycentric.cpp, piecewise_constant_dual_grid_scalar_space.cpp,
    {raviart_thomas_0,rwg,nedelec_0,scaled_nedelec_0}_vector_space_barycentric.cpp;
    /repo/lib/fiber/{linear_scalar,raviart_thomas_0,nedelec_0}_shapeset_barycentric.hpp.
    Bounding boxes are not modelled.  Numbers are reals.  [None]: an exception or an index outside a vector. *)
From Coq Require Import Reals.
From Verif Require Import Base ComplexR SegModel AsmModel SpaceModel VecModel LagModel.
Set Implicit Arguments.
Unset Strict Implicit.
Local Open Scope R_scope.

(** concrete_grid.hpp 243-317: the corners of son i of a triangle *)
Definition midpointOf (p q : vec) : vec := V ((vx p + vx q) / 2) ((vy p + vy q) / 2) ((vz p + vz q) / 2).
Definition centreOf (p q r : vec) : vec := V ((vx p + vx q + vx r) / 3) ((vy p + vy q + vy r) / 3) ((vz p + vz q + vz r) / 3).
Definition sonTri (T : tri) (i : nat) : tri :=
  let b := centreOf (c0 T) (c1 T) (c2 T) in
  let m01 := midpointOf (c0 T) (c1 T) in let m02 := midpointOf (c0 T) (c2 T) in let m12 := midpointOf (c1 T) (c2 T) in
  match i with
  | 0%nat => Tri (c0 T) b m02 | 1%nat => Tri (c0 T) m01 b
  | 2%nat => Tri (c1 T) b m01 | 3%nat => Tri (c1 T) m12 b
  | 4%nat => Tri (c2 T) b m12 | _ => Tri (c2 T) m02 b end.

(** ---- shapesets; type1 is TYPE1 ---- *)
Definition get3 (i : nat) (l : list R) : R := nth i l 0.
(** linear_scalar_shapeset_barycentric.hpp 51-53 *)
Definition linearCoeffs (type1 : bool) (dof : nat) : list R :=
  nth dof (if type1 then [[1; 1/3; 1/2]; [0; 1/3; 0]; [0; 1/3; 1/2]]
           else [[1; 1/2; 1/3]; [0; 1/2; 1/3]; [0; 0; 1/3]]) [].
(** 64-71, 88-96 *)
Definition baryLinear (type1 : bool) (dof : nat) (q : R * R) : R :=
  fold_left (fun acc j => acc + get3 j (linearCoeffs type1 dof) * p1Function j q) (seq 0 3) 0.
(** raviart_thomas_0_shapeset_barycentric.hpp 47-49 *)
Definition rtCoeffs (type1 : bool) (dof : nat) : list R :=
  nth dof (if type1 then [[1/3; 0; -1/6]; [-1/3; 1/2; 0]; [0; 0; 1/6]]
           else [[1/2; -1/3; 0]; [0; 1/3; -1/6]; [0; 0; 1/6]]) [].
(** 68-77, 96-107 *)
Definition baryRt (type1 : bool) (dof : nat) (q : R * R) (c : nat) : R :=
  fold_left (fun acc j => acc + get3 j (rtCoeffs type1 dof) * rtValue j q c) (seq 0 3) 0.
(** nedelec_0_shapeset_barycentric.hpp 46-59 *)
Definition baryNc (type1 : bool) (dof : nat) (q : R * R) (c : nat) : R :=
  match c with O => - baryRt type1 dof q 1%nat | _ => baryRt type1 dof q 0%nat end.

(** ---- dof maps ---- *)
(** one refined element: its index, dofs, weights, local dofs in the order they are pushed, shapeset type *)
Record row := Row { r_index : Z; r_dofs : list Z; r_w : list R; r_push : list nat; r_type : bool }.
Definition pushRow (r : row) (g2l : list (list ldof)) : option (list (list ldof)) :=
  ofold (fun g l => d <- nth_error (r_dofs r) l ;; if (0 <=? d)%Z then zpush g d (r_index r, l) else Some g) (r_push r) g2l.
Record tables := Tables { t_l2g : list (list Z); t_w : list (list R); t_g2l : list (list ldof); t_type : list bool }.
Definition writeRow (t : tables) (r : row) : option tables :=
  l2g <- zset (t_l2g t) (r_index r) (r_dofs r) ;;
  w <- zset (t_w t) (r_index r) (r_w r) ;;
  ty <- zset (t_type t) (r_index r) (r_type r) ;;
  g2l <- pushRow r (t_g2l t) ;;
  Some (Tables l2g w g2l ty).
(** the loop over the coarse elements and their sons; the vectors are resized before *)
Record baryspace := BarySpace { b_map : dofmap Rsr; b_type : list bool }.
Definition assignSons (elementCount globalDofCount : nat) (rows : list (option row)) : option baryspace :=
  t <- ofold (fun t r => r' <- r ;; writeRow t r') rows
        (Tables (repeat [] elementCount) (repeat [] elementCount) (repeat [] globalDofCount) (repeat false elementCount)) ;;
  Some (BarySpace (@DofMap Rsr (t_l2g t) (t_w t) (t_g2l t) (initializeLocal2FlatLocalDofMap (t_l2g t))) (t_type t)).

Section Spaces.
(** m_sonMap *)
Variable son : Z -> nat -> Z.
Definition sonPairs (g : sgrid) : list (selt * nat) := flat_map (fun e => map (fun i => (e, i)) (seq 0 6)) (g_elts g).
(** piecewise_linear_continuous_scalar_space_barycentric.cpp 199-205 *)
Definition element2Basis (i : nat) : list nat :=
  nth i [[0; 1; 2]; [0; 1; 2]; [2; 0; 1]; [2; 0; 1]; [1; 2; 0]; [1; 2; 0]]%nat [].
(** globalDofs.resize(3); globalDofs[basisNumber] = dof of vertex j *)
Definition scatter (i : nat) (dofs : list Z) : option (list Z) :=
  ofold (fun acc j => b <- nth_error (element2Basis i) j ;; d <- nth_error dofs j ;; upd acc b d) (seq 0 3) [0; 0; 0]%Z.
(** index.subEntityIndex(entity, j, 2), j = 0, 1, 2, looked up in globalDofIndices *)
Definition vertices3 (e : selt) : option (list Z) := oseq (map (fun j => nth_error (s_verts e) j) (seq 0 3)).
(** 169-252 *)
Definition linearRow (g : sgrid) (p : selt * nat) : option row :=
  let (e, i) := p in
  vs <- vertices3 e ;; ds <- oseq (map (zget (zrange (g_n2 g))) vs) ;; ds' <- scatter i ds ;;
  Some (Row (son (s_index e) i) ds' (repeat 1 3) (element2Basis i) (Nat.even i)).
Definition baryLinearSpace (g : sgrid) : option baryspace :=
  assignSons (6 * length (g_elts g)) (Z.to_nat (g_n2 g)) (map (linearRow g) (sonPairs g)).
(** piecewise_linear_discontinuous_scalar_space_barycentric.cpp 169-240; globalDofCount_ is 3 times the position of the element *)
Definition discLinearRow (n : nat) (x : nat * (selt * nat)) : option row :=
  let '(p, (e, i)) := x in
  ds <- oseq (map (fun j => zget (zrange (3 * Z.of_nat n)) (3 * Z.of_nat p + Z.of_nat j)%Z) (seq 0 3)) ;; ds' <- scatter i ds ;;
  Some (Row (son (s_index e) i) ds' (repeat 1 3) (element2Basis i) (Nat.even i)).
Definition numberedPairs (g : sgrid) : list (nat * (selt * nat)) :=
  flat_map (fun pe => map (fun i => (fst pe, (snd pe, i))) (seq 0 6)) (combine (seq 0 (length (g_elts g))) (g_elts g)).
Definition baryDiscLinearSpace (g : sgrid) : option baryspace :=
  let n := length (g_elts g) in
  assignSons (6 * n) (3 * n) (map (discLinearRow n) (numberedPairs g)).
(** piecewise_constant_scalar_space_barycentric.cpp 152-195 *)
Definition constantRow (g : sgrid) (p : selt * nat) : option row :=
  let (e, i) := p in
  d <- zget (zrange (g_n0 g)) (s_index e) ;; Some (Row (son (s_index e) i) [d] [1] [0%nat] true).
Definition baryConstantSpace (g : sgrid) : option baryspace :=
  assignSons (6 * length (g_elts g)) (length (g_elts g)) (map (constantRow g) (sonPairs g)).
(** piecewise_constant_dual_grid_scalar_space.cpp 176-219 *)
Definition dualRow (g : sgrid) (p : selt * nat) : option row :=
  let (e, i) := p in
  v <- nth_error (s_verts e) (i / 2) ;; d <- zget (zrange (g_n2 g)) v ;; Some (Row (son (s_index e) i) [d] [1] [0%nat] true).
Definition dualSpace (g : sgrid) : option baryspace :=
  assignSons (6 * length (g_elts g)) (Z.to_nat (g_n2 g)) (map (dualRow g) (sonPairs g)).

(** rwg_vector_space_barycentric.cpp 185-346 (raviart_thomas_0 and nedelec_0: all lengths 1; scaled_nedelec_0: the same) *)
Definition edges3 (e : selt) : option (list Z) := oseq (map (fun j => option_map fst (nth_error (s_facets e) j)) (seq 0 3)).
(** 195-203 *)
Definition faceCounts (g : sgrid) : option (list Z) :=
  ofold (fun cnt e => es <- edges3 e ;; ofold (fun cnt i => n <- zget cnt i ;; zset cnt i (n + 1)%Z) es cnt)
        (g_elts g) (repeat 0%Z (Z.to_nat (g_n1 g))).
(** 216-229 *)
Definition lowestElements (g : sgrid) : option (list Z) :=
  ofold (fun low e => es <- edges3 e ;; ofold (fun low i => n <- zget low i ;; zset low i (Z.min (s_index e) n)) es low)
        (g_elts g) (repeat INT_MAX (Z.to_nat (g_n1 g))).
(** 205-214, m_putDofsOnBoundaries is false *)
Fixpoint numberTwos (cnt : list Z) (count : Z) : list Z * Z :=
  match cnt with
  | [] => ([], count)
  | c :: r => if (c =? 2)%Z then let (l, n) := numberTwos r (count + 1) in (count :: l, n)
              else let (l, n) := numberTwos r count in ((-1)%Z :: l, n)
  end.
(** 293-341 *)
Definition vectorRow (len : Z -> R) (dofs low : list Z) (p : selt * nat) : option row :=
  let (e, i) := p in
  es <- edges3 e ;;
  es' <- oseq (map (fun j => b <- nth_error (element2Basis i) j ;; nth_error es b) (seq 0 3)) ;;
  ds <- oseq (map (zget dofs) es') ;;
  ws <- oseq (map (fun i => l <- zget low i ;; Some (if (l =? s_index e)%Z then len i else - len i)) es') ;;
  Some (Row (son (s_index e) i) ds ws [0; 1; 2]%nat (Nat.even i)).
Definition baryVectorSpace (g : sgrid) (len : Z -> R) : option baryspace :=
  cnt <- faceCounts g ;; low <- lowestElements g ;;
  let (dofs, count) := numberTwos cnt 0 in
  assignSons (6 * length (g_elts g)) (Z.to_nat count) (map (vectorRow len dofs low) (sonPairs g)).
End Spaces.

(** ---- evaluation on the refined element with index j and corners T: local_evaluator.hpp 51-56 ---- *)
Definition evalBaryLinear (b : baryspace) (u : list R) (j : Z) (q : R * R) : option R :=
  cs <- localCoefficients (b_map b) u j ;; ty <- zget (b_type b) j ;;
  sumScalar (fun f => baryLinear ty f q) cs 3.
Definition evalConstant (b : baryspace) (u : list R) (j : Z) : option R :=
  cs <- localCoefficients (b_map b) u j ;; sumScalar (fun _ => 1) cs 1.
Definition evalBaryHdiv (b : baryspace) (u : list R) (j : Z) (T : tri) (q : R * R) : option vec :=
  cs <- localCoefficients (b_map b) u j ;; ty <- zget (b_type b) j ;;
  sumShapes (fun k => hdivValue T (baryRt ty k q)) cs 3.
Definition evalBaryHcurl (b : baryspace) (u : list R) (j : Z) (T : tri) (q : R * R) : option vec :=
  cs <- localCoefficients (b_map b) u j ;; ty <- zget (b_type b) j ;;
  sumShapes (fun k => hcurlValue T (baryNc ty k q)) cs 3.
