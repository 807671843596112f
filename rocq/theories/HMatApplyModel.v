(** Model of HMatrix: leaf data, initialisation, permutation of vectors, matrix-vector
    products (serial, threaded and distributed), Frobenius norm, cutoff.
    /repo/lib/hmat/hmatrix_impl.hpp, hmatrix_dense_data_impl.hpp,
    hmatrix_low_rank_data_impl.hpp, hmatrix_compressor_impl.hpp. *)
From Verif Require Import Base HMatTreeModel.
Set Implicit Arguments.

(** hmat/common.hpp: enum TransposeMode. *)
Inductive tmode := NOTRANS | TRANS | CONJ | CONJTRANS.
Definition isT (m : tmode) : bool := match m with TRANS | CONJTRANS => true | _ => false end.
Definition isC (m : tmode) : bool := match m with CONJ | CONJTRANS => true | _ => false end.

Section Apply.
  Variable K : star_ring.
  Local Open Scope sr_scope.
  (** comparison with ValueType(0) *)
  Variable isz : K -> bool.

  (** Matrices are total functions; dimensions are carried separately.  Eigen's
      bounds assertions are not modelled here. *)
  Definition mat := nat -> nat -> K.
  Definition mzero : mat := fun _ _ => 0.
  Definition mscale (a : K) (A : mat) : mat := fun i j => a * A i j.
  Definition madd (A B : mat) : mat := fun i j => A i j + B i j.
  Definition mtrans (A : mat) : mat := fun i j => A j i.
  Definition mconj (A : mat) : mat := fun i j => conj (A i j).
  (** product of matrices with inner dimension n *)
  Definition mmul (n : nat) (A B : mat) : mat :=
    fun i j => bsum (seq 0 n) (fun k => A i k * B k j).

  (** HMatrixDenseData (m_A with dimensions) and HMatrixLowRankData (m_A, m_B with
      dimensions arows x acols and brows x bcols). *)
  Inductive hdata :=
  | Dense (rows cols : nat) (A : mat)
  | LowRank (arows acols : nat) (A : mat) (brows bcols : nat) (B : mat).

  (** hmatrix_dense_data_impl.hpp:13-34; hmatrix_low_rank_data_impl.hpp:92-112
      (rank() = m_A.cols()). *)
  Definition hd_apply (d : hdata) (X Y : mat) (trans : tmode) (alpha beta : K) : mat :=
    let Y1 := if isz beta then mzero else Y in
    match d with
    | Dense r c A =>
      if isz alpha then mscale beta Y1
      else match trans with
      | NOTRANS => madd (mmul c (mscale alpha A) X) (mscale beta Y1)
      | TRANS => madd (mmul r (mscale alpha (mtrans A)) X) (mscale beta Y1)
      | CONJ => madd (mmul c (mscale alpha (mconj A)) X) (mscale beta Y1)
      | CONJTRANS => madd (mmul r (mscale alpha (mtrans (mconj A))) X) (mscale beta Y1)
      end
    | LowRank ar ac A br bc B =>
      if (isz alpha || (ac =? 0)%nat)%bool then mscale beta Y1
      else match trans with
      | NOTRANS => madd (mmul ac (mscale alpha A) (mmul bc B X)) (mscale beta Y1)
      | TRANS => madd (mmul br (mscale alpha (mtrans B)) (mmul ar (mtrans A) X)) (mscale beta Y1)
      | CONJ => madd (mmul ac (mscale alpha (mconj A)) (mmul bc (mconj B) X)) (mscale beta Y1)
      | CONJTRANS => madd (mmul br (mscale alpha (mtrans (mconj B)))
                               (mmul ar (mtrans (mconj A)) X)) (mscale beta Y1)
      end
    end.

  (** Index ranges of a leaf (hmatrix_impl.hpp:246-249). *)
  Record leafblk := { r0 : nat; r1 : nat; c0 : nat; c1 : nat }.
  Definition leaf_of {G} (s : stree (bdata G)) : leafblk :=
    {| r0 := clo (sdata (brow (sdata s))); r1 := chi (sdata (brow (sdata s)));
       c0 := clo (sdata (bcol (sdata s))); c1 := chi (sdata (bcol (sdata s))) |}.

  (** State of an HMatrix object.  Leaves are identified by their position in the
      vector returned by leafNodes() (the C++ code uses node pointers).
      m_hMatrixData is a map from leaves to data. *)
  Record hstate := {
    hm_my : list nat;                       (* m_myLeafs *)
    hm_data : nat -> option hdata;          (* m_hMatrixData *)
    hm_ndense : nat; hm_nlow : nat }.       (* m_numberOfDenseBlocks, m_numberOfLowRankBlocks *)

  (** hmatrix_impl.hpp:20-28: constructor without compressor *)
  Definition hm_new : hstate :=
    {| hm_my := []; hm_data := fun _ => None; hm_ndense := 0; hm_nlow := 0 |}.
  (** hmatrix_impl.hpp:138-140: reset() clears only the data map. *)
  Definition hm_reset (s : hstate) : hstate :=
    {| hm_my := hm_my s; hm_data := fun _ => None; hm_ndense := hm_ndense s; hm_nlow := hm_nlow s |}.

  (** hmatrix_impl.hpp:109-110: for (index = rank; index < n; index += nproc). *)
  Fixpoint deal_leafs (fuel index nproc n : nat) : list nat :=
    match fuel with
    | O => []
    | S k => if (index <? n)%nat then index :: deal_leafs k (index + nproc) nproc n else []
    end.
  Definition my_leafs (rank nproc n : nat) : list nat := deal_leafs n rank nproc n.

  Definition is_dense (d : hdata) : bool := match d with Dense _ _ _ => true | _ => false end.

  (** hmatrix_impl.hpp:73-136: initialize.  [compress id] is the data the compressor
      produces for leaf id; the parallel loop writes one map entry per element of
      m_myLeafs. Statistics count the entries of the map (lines 126-134); the memory
      statistic is omitted. *)
  Definition hm_initialize (compress : nat -> hdata) (rank nproc nleafs : nat) (s0 : hstate) : hstate :=
    let s := hm_reset s0 in
    let my := hm_my s ++ my_leafs rank nproc nleafs in
    let data := fun id => if existsb (Nat.eqb id) my then Some (compress id) else None in
    let keys := nodup Nat.eq_dec my in
    {| hm_my := my; hm_data := data;
       hm_ndense := hm_ndense s + length (filter (fun id => is_dense (compress id)) keys);
       hm_nlow := hm_nlow s + length (filter (fun id => negb (is_dense (compress id))) keys) |}.

  Definition fset (f : mat) (i : nat) (row : nat -> K) : mat :=
    fun i' j => if (i' =? i)%nat then row j else f i' j.

  (** hmatrix_impl.hpp:160-181 and 183-204: the loops over rows; [f] starts as the
      uninitialised matrix.  [None] = permutation vector read out of bounds. *)
  Fixpoint permute_loop (p : list nat) (M : mat) (idx : list nat) (f : mat) : option mat :=
    match idx with
    | [] => Some f
    | i :: rest =>
      match nth_error p i with
      | Some q => permute_loop p M rest (fset f q (fun j => M i j))
      | None => None
      end
    end.
  Definition permuteMatToHMatDofs (p : dofperm) (rows : nat) (M junk : mat) : option mat :=
    permute_loop (o2h p) M (seq 0 rows) junk.
  Definition permuteMatToOriginalDofs (p : dofperm) (rows : nat) (M junk : mat) : option mat :=
    permute_loop (h2o p) M (seq 0 rows) junk.

  (** hmatrix_impl.hpp:246-277: contribution of one leaf to the permuted result. *)
  Definition out_lo (b : leafblk) (t : tmode) := if isT t then c0 b else r0 b.
  Definition out_hi (b : leafblk) (t : tmode) := if isT t then c1 b else r1 b.
  Definition in_lo (b : leafblk) (t : tmode) := if isT t then r0 b else c0 b.
  Definition leaf_result (leafs : list leafblk) (data : nat -> option hdata) (t : tmode)
             (xP : mat) (id : nat) : option (leafblk * mat) :=
    match nth_error leafs id, data id with
    | Some b, Some d =>
      Some (b, hd_apply d (fun k j => xP (in_lo b t + k)%nat j) mzero t 1 1)
    | _, _ => None     (* .at() throws std::out_of_range *)
    end.

  (** One critical section of the parallel loop (lines 259-263 / 272-276): with the
      mutex of output row i held, row (i - lo) of the leaf's result is added. A
      schedule is the sequence in which the critical sections (leaf, row) execute. *)
  Definition add_row (leafs : list leafblk) (data : nat -> option hdata) (t : tmode)
             (xP : mat) (y : option mat) (task : nat * nat) : option mat :=
    match y, leaf_result leafs data t xP (fst task) with
    | Some y, Some (b, res) =>
      let i := snd task in
      Some (fset y i (fun j => y i j + res (i - out_lo b t)%nat j))
    | _, _ => None
    end.
  (** The critical sections that have to be executed. *)
  Definition tasks (leafs : list leafblk) (t : tmode) (my : list nat) : list (nat * nat) :=
    flat_map (fun id => match nth_error leafs id with
                        | Some b => map (pair id) (seq (out_lo b t) (out_hi b t - out_lo b t))
                        | None => []
                        end) my.

  (** hmatrix_impl.hpp:206-284: HMatrix::apply on one process up to the reduction.
      [nr],[nc] are the matrix dimensions, [pr],[pc] the row and column dof
      permutations, [junk] the contents of uninitialised storage. *)
  Definition apply_local (leafs : list leafblk) (pr pc : dofperm) (nr nc rank : nat)
      (st : hstate) (sched : list (nat * nat)) (junk : mat)
      (X Y : mat) (trans : tmode) (alpha beta : K) : option mat :=
    let Y1 := if (isz beta || negb (rank =? 0)%nat)%bool then mzero else fun i j => Y i j * beta in
    let pin := if isT trans then pr else pc in
    let pout := if isT trans then pc else pr in
    let nin := if isT trans then nr else nc in
    let nout := if isT trans then nc else nr in
    match permuteMatToHMatDofs pin nin X junk, permuteMatToHMatDofs pout nout Y1 junk with
    | Some xp, Some yp =>
      match fold_left (add_row leafs (hm_data st) trans (mscale alpha xp)) sched (Some yp) with
      | Some y => permuteMatToOriginalDofs pout nout y junk
      | None => None
      end
    | _, _ => None
    end.

  (** hmatrix_impl.hpp:286-292: MPI_Allreduce with MPI_SUM over the ranks; all ranks
      receive the same sum. *)
  Fixpoint allreduce (ys : list (option mat)) : option mat :=
    match ys with
    | [] => Some mzero
    | y :: rest =>
      match y, allreduce rest with
      | Some a, Some b => Some (madd a b)
      | _, _ => None
      end
    end.

  (** The collective operation: every rank runs apply_local on its own state, schedule
      and Y; the result on each rank. *)
  Definition apply_dist (leafs : list leafblk) (pr pc : dofperm) (nr nc nproc : nat)
      (st : nat -> hstate) (sched : nat -> list (nat * nat)) (junk : nat -> mat)
      (X : mat) (Y : nat -> mat) (trans : tmode) (alpha beta : K) : option mat :=
    let loc r := apply_local leafs pr pc nr nc r (st r) (sched r) (junk r) X (Y r) trans alpha beta in
    if (1 <? nproc)%nat then allreduce (map loc (seq 0 nproc)) else loc 0%nat.

  (** hmatrix_compressor_impl.hpp:13-44.  [impl] is the data compressBlockImpl stores,
      [evals] counts calls of compressBlockImpl.  [far] is (distance > m_cutoff). *)
  Definition compressBlock (far admissible : bool) (b : leafblk) (impl : hdata) : hdata * nat :=
    let '(d, n) :=
      if (negb far || negb admissible)%bool then (impl, 1)%nat
      else (LowRank (r1 b - r0 b) 0 mzero (c1 b - c0 b) 0 mzero, 0)%nat in
    (* line 43: unconditional second call, which overwrites hMatrixData *)
    let d' := impl in (d', S n).
End Apply.
