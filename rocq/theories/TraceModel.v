(** Coupling with FEniCS P1 functions: /repo/python/bempp/api/fenics_interface/p1_coupling.py.
    Grids and spaces as in SegModel and SpaceModel; [ins v] is the insertion index of the vertex with index v.
    [None]: IndexError or ValueError. *)
From Coq Require Import ZArith List Bool Arith.
Import ListNotations.
From Verif Require Import Base AsmModel MatAlg SegModel SpaceModel SingModel.
Set Implicit Arguments.

(** 15-17: the loop over the corners of one element; array[i] = x with i >= 0 *)
Fixpoint cornerLoop (ins : Z -> nat) (dofs : list Z) (ind : nat) (vs : list Z) (arr : list Z) : option (list Z) :=
  match vs with
  | [] => Some arr
  | v :: r => match nth_error dofs ind with
              | None => None
              | Some d => match zset arr (Z.of_nat (ins v)) d with None => None | Some a => cornerLoop ins dofs (S ind) r a end
              end
  end.
(** 13-17 *)
Fixpoint elementsLoop (ins : Z -> nat) (l2g : list (list Z)) (es : list selt) (arr : list Z) : option (list Z) :=
  match es with
  | [] => Some arr
  | e :: r => match zget l2g (s_index e) with
              | None => None
              | Some dofs => match cornerLoop ins dofs 0 (s_verts e) arr with None => None | Some a => elementsLoop ins l2g r a end
              end
  end.
(** coo_matrix((data, (rows, cols))) without a shape: the smallest shape that fits; no entries or negative indices raise *)
Definition cooInfer {K : star_ring} (es : list (nat * Z * K)) : option (mat K) :=
  match es with
  | [] => None
  | _ => if forallb (fun e => (0 <=? snd (fst e))%Z) es
         then let es' := map (fun e => (fst (fst e), Z.to_nat (snd (fst e)), snd e)) es in
              cooMatrix (S (list_max (map (fun e => fst (fst e)) es'))) (S (list_max (map (fun e => snd (fst e)) es'))) es'
         else None
  end.
(** 3-22 *)
Definition p1DofToVertexMatrix {K : star_ring} (g : sgrid) (ins : Z -> nat) (m : dofmap K) : option (mat K) :=
  let n := length (dm_g2l m) in
  match elementsLoop ins (dm_l2g m) (g_elts g) (repeat 0%Z n) with
  | None => None
  | Some arr => cooInfer (map (fun p => (fst p, snd p, one)) (combine (seq 0 n) arr))
  end.
(** matrix products of scipy raise if the dimensions differ *)
Definition spMul {K : star_ring} (a b : mat K) : option (mat K) := if m_cols a =? m_rows b then Some (mMul a b) else None.
(** 24-79: [bm]: entity_map(0) of the boundary mesh, the mesh vertex of each boundary vertex; [nv]: mesh.num_vertices();
    [d2v]: dolfin.dof_to_vertex_map.  The boundary grid [g] is built from the vertices and cells of the boundary mesh. *)
Definition p1Trace {K : star_ring} (g : sgrid) (ins : Z -> nat) (m : dofmap K) (bm : list nat) (nv : nat) (d2v : list nat) : option (mat K) :=
  match p1DofToVertexMatrix g ins m with
  | None => None
  | Some P =>
    match cooMatrix (length bm) nv (map (fun p => (fst p, snd p, one)) (combine (seq 0 (length bm)) bm)) with
    | None => None
    | Some B =>
      if length d2v =? nv then
        match cooMatrix nv nv (map (fun p => (fst p, snd p, one)) (combine d2v (seq 0 nv))) with
        | None => None
        | Some D => match spMul (mT P) B with None => None | Some X => spMul X D end
        end
      else None
    end
  end.
