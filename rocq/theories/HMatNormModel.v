(** Model of HMatrix::frobeniusNorm (complex scalars over the reals).
    /repo/lib/hmat/hmatrix_impl.hpp:48-51, 295-319;
    hmatrix_dense_data_impl.hpp:70-74; hmatrix_low_rank_data_impl.hpp:53-71. *)
From Coq Require Import Reals.
From Verif Require Import Base HMatTreeModel HMatApplyModel ComplexR.
Set Implicit Arguments.

(** Leaf norms.  Dense: Eigen's norm().  Low rank: the loop
    result += col.adjoint() * (A^H A) * col over the columns of B. *)
Definition hd_norm (d : hdata CR) : R :=
  match d with
  | Dense r c A =>
    sqrt (bsum (K := Rsr) (seq 0 r) (fun i => bsum (K := Rsr) (seq 0 c) (fun j => cabs2 (A i j))))
  | LowRank ar ac A br bc B =>
    if ac =? 0 then 0%R
    else
      let aHa p q := bsum (K := CR) (seq 0 ar) (fun k => mul (conj (A k p)) (A k q)) in
      sqrt (fst (bsum (K := CR) (seq 0 bc) (fun i =>
              bsum (K := CR) (seq 0 br) (fun q =>
                mul (bsum (K := CR) (seq 0 br) (fun p => mul (conj (B p i)) (aHa p q))) (B q i)))))
  end.

(** hmatrix_impl.hpp:295-319.  [data] is m_hMatrixData.at on leaves (None: the leaf
    belongs to another MPI rank and at() throws); leaves are identified by their index
    ranges.  The four task-group tasks are independent, so their order is irrelevant. *)
Fixpoint frobeniusNorm {G} (data : leafblk -> option (hdata CR)) (t : stree (bdata G)) : option R :=
  match t with
  | SNode _ [] =>
    match data (leaf_of t) with Some d => Some (hd_norm d) | None => None end
  | SNode _ ch =>
    match fold_right (fun c acc =>
        match frobeniusNorm data c, acc with
        | Some r, Some s => Some (r * r + s)%R
        | _, _ => None
        end) (Some 0%R) ch with
    | Some s => Some (sqrt s)
    | None => None
    end
  end.
