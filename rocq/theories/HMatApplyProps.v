(** C06-C10, C13: H-matrix products, permutations, initialisation, norm, cutoff.

    Common hypotheses of the theorems ("an H-matrix built by the library"): a row and a
    column cluster tree returned by the constructor for arbitrary geometries and sort
    outcomes, an arbitrary admissibility function and maxBlockSize, the leaves [l]
    returned by leafNodes(), and for every leaf block data [blk] of the leaf's shape.
    Scalars are an arbitrary commutative ring with conjugation. *)
From Coq Require Import Reals.
From Verif Require Import Base HMatTreeModel HMatTreeSpec HMatTreeProofs HMatBlockProofs
  HMatTreeProps HMatApplyModel HMatApplySpec HMatApplyProofs HMatApplyProofs2
  ComplexR HMatNormModel HMatNormProofs.

(** The matrix represented by the leaves exists (and is unique on its index range, by
    C04 every position is covered). *)
Theorem C06_represented_matrix_exists :
  forall (G : Type) (adm : cdata G -> cdata G -> bool) (mx : Z)
    (geomR geomC : list nat -> G) (sortR sortC : G -> list nat -> list nat),
  (forall g l, Permutation (sortR g l) l) -> (forall g l, Permutation (sortC g l) l) ->
  forall (n m : nat) (mbsR mbsC : Z) tr tc pr pc l,
  clusterTree geomR sortR n mbsR = Some (tr, pr) ->
  clusterTree geomC sortC m mbsC = Some (tc, pc) ->
  leafNodes (blockClusterTree adm mx tr tc) = Some l ->
  forall (K : star_ring) (blk : nat -> hdata K),
  exists M, represents (map leaf_of l) blk pr pc n m M.
Proof.
  intros. eapply (represented_exists adm mx geomR geomC sortR sortC); eassumption.
Qed.
Print Assumptions C06_represented_matrix_exists.

(** C06.  For every interleaving [sched] of the critical sections of the parallel loop,
    every content [junk] of uninitialised memory, every X, Y, alpha, beta and every
    transpose mode, apply returns alpha*op(M)*X + beta*Y. *)
Theorem C06_matvec_is_dense_product :
  forall (G : Type) (adm : cdata G -> cdata G -> bool) (mx : Z)
    (geomR geomC : list nat -> G) (sortR sortC : G -> list nat -> list nat),
  (forall g l, Permutation (sortR g l) l) -> (forall g l, Permutation (sortC g l) l) ->
  forall (n m : nat) (mbsR mbsC : Z) tr tc pr pc l,
  clusterTree geomR sortR n mbsR = Some (tr, pr) ->
  clusterTree geomC sortC m mbsC = Some (tc, pc) ->
  leafNodes (blockClusterTree adm mx tr tc) = Some l ->
  forall (K : star_ring) (isz : K -> bool), (forall x, isz x = true <-> x = zero) ->
  forall (blk : nat -> hdata K),
  (forall id s, nth_error l id = Some s ->
     hd_shape (blk id) (size_of (brow (sdata s))) (size_of (bcol (sdata s)))) ->
  forall M, represents (map leaf_of l) blk pr pc n m M ->
  forall (t : tmode) sched junk (X Y : mat K) (alpha beta : K),
  Permutation sched (tasks (map leaf_of l) t (seq 0 (length l))) ->
  exists y, apply_local isz (map leaf_of l) pr pc n m 0
              (hm_initialize blk 0 1 (length l) (hm_new K)) sched junk X Y t alpha beta = Some y /\
    forall i j, i < (if isT t then m else n) ->
      y i j = add (mul alpha (bsum (seq 0 (if isT t then n else m)) (fun q => mul (op t M i q) (X q j))))
                  (mul beta (Y i j)).
Proof.
  intros. eapply (apply_serial_e2e adm mx geomR geomC sortR sortC); eassumption.
Qed.
Print Assumptions C06_matvec_is_dense_product.

(** C07.  nproc ranks, each with its own schedule, its own uninitialised memory and its
    own Y: the leaves are dealt out exactly once, and the value every rank holds after
    the reduction is alpha*op(M)*X + beta*(Y of rank 0), i.e. the serial result. *)
Theorem C07_distributed_matvec :
  forall (G : Type) (adm : cdata G -> cdata G -> bool) (mx : Z)
    (geomR geomC : list nat -> G) (sortR sortC : G -> list nat -> list nat),
  (forall g l, Permutation (sortR g l) l) -> (forall g l, Permutation (sortC g l) l) ->
  forall (n m : nat) (mbsR mbsC : Z) tr tc pr pc l,
  clusterTree geomR sortR n mbsR = Some (tr, pr) ->
  clusterTree geomC sortC m mbsC = Some (tc, pc) ->
  leafNodes (blockClusterTree adm mx tr tc) = Some l ->
  forall (K : star_ring) (isz : K -> bool), (forall x, isz x = true <-> x = zero) ->
  forall (blk : nat -> hdata K),
  (forall id s, nth_error l id = Some s ->
     hd_shape (blk id) (size_of (brow (sdata s))) (size_of (bcol (sdata s)))) ->
  forall M, represents (map leaf_of l) blk pr pc n m M ->
  forall (t : tmode) (nproc : nat) sched junk (X : mat K) (Y : nat -> mat K) (alpha beta : K),
  0 < nproc ->
  (forall r, r < nproc -> Permutation (sched r) (tasks (map leaf_of l) t (my_leafs r nproc (length l)))) ->
  Permutation (flat_map (fun r => my_leafs r nproc (length l)) (seq 0 nproc)) (seq 0 (length l)) /\
  exists y, apply_dist isz (map leaf_of l) pr pc n m nproc
              (fun r => hm_initialize blk r nproc (length l) (hm_new K))
              sched junk X Y t alpha beta = Some y /\
    forall i j, i < (if isT t then m else n) ->
      y i j = add (mul alpha (bsum (seq 0 (if isT t then n else m)) (fun q => mul (op t M i q) (X q j))))
                  (mul beta (Y 0 i j)).
Proof.
  intros. split; [now apply my_leafs_partition|].
  eapply (apply_dist_e2e adm mx geomR geomC sortR sortC); eassumption.
Qed.
Print Assumptions C07_distributed_matvec.

(** C08. *)
Theorem C08_vector_permutation_invertible :
  forall (G : Type) (geom : list nat -> G) (sortf : G -> list nat -> list nat),
  (forall g l, Permutation (sortf g l) l) ->
  forall (n : nat) (mbs : Z) t p, clusterTree geom sortf n mbs = Some (t, p) ->
  forall (K : star_ring) (M junk junk' : mat K),
  (exists f g, permuteMatToHMatDofs p n M junk = Some f /\
     (forall i h, mapOriginalDofToHMatDof p i = Some h -> forall j, f h j = M i j) /\
     permuteMatToOriginalDofs p n f junk' = Some g /\ (forall i j, i < n -> g i j = M i j)) /\
  (exists f g, permuteMatToOriginalDofs p n M junk = Some f /\
     permuteMatToHMatDofs p n f junk' = Some g /\ (forall h j, h < n -> g h j = M h j)).
Proof.
  intros. assert (Hp : perm_ok p n) by (eapply cluster_perm_ok; eassumption).
  split; [now apply permute_roundtrip|now apply permute_roundtrip'].
Qed.
Print Assumptions C08_vector_permutation_invertible.

(** C09, partial.  What holds: re-initialising leaves the stored block data unchanged.
    Missing: the represented operator and the statistics do change, see below. *)
Theorem C09_reinitialise_block_data_partial :
  forall (K : star_ring) (blk : nat -> hdata K) rank nproc nleafs id,
  hm_data (hm_initialize blk rank nproc nleafs (hm_initialize blk rank nproc nleafs (hm_new K))) id
  = hm_data (hm_initialize blk rank nproc nleafs (hm_new K)) id.
Proof.
  intros. cbn [hm_initialize hm_data hm_my hm_reset hm_new app].
  rewrite existsb_app. now rewrite orb_diag.
Qed.
Print Assumptions C09_reinitialise_block_data_partial.

(** C09 refuted, for every H-matrix: m_myLeafs is not cleared, so after a second
    initialize the product is that of TWICE the represented matrix. *)
Theorem C09_reinitialise_doubles_operator_refuted :
  forall (G : Type) (adm : cdata G -> cdata G -> bool) (mx : Z)
    (geomR geomC : list nat -> G) (sortR sortC : G -> list nat -> list nat),
  (forall g l, Permutation (sortR g l) l) -> (forall g l, Permutation (sortC g l) l) ->
  forall (n m : nat) (mbsR mbsC : Z) tr tc pr pc l,
  clusterTree geomR sortR n mbsR = Some (tr, pr) ->
  clusterTree geomC sortC m mbsC = Some (tc, pc) ->
  leafNodes (blockClusterTree adm mx tr tc) = Some l ->
  forall (K : star_ring) (isz : K -> bool), (forall x, isz x = true <-> x = zero) ->
  forall (blk : nat -> hdata K),
  (forall id s, nth_error l id = Some s ->
     hd_shape (blk id) (size_of (brow (sdata s))) (size_of (bcol (sdata s)))) ->
  forall M, represents (map leaf_of l) blk pr pc n m M ->
  forall (t : tmode) sched junk (X Y : mat K) (alpha beta : K),
  let st := hm_initialize blk 0 1 (length l) (hm_initialize blk 0 1 (length l) (hm_new K)) in
  Permutation sched (tasks (map leaf_of l) t (hm_my st)) ->
  exists y, apply_local isz (map leaf_of l) pr pc n m 0 st sched junk X Y t alpha beta = Some y /\
    forall i j, i < (if isT t then m else n) ->
      let p := bsum (seq 0 (if isT t then n else m)) (fun q => mul (op t M i q) (X q j)) in
      y i j = add (mul alpha (add p p)) (mul beta (Y i j)).
Proof.
  intros. eapply (apply_twice_init adm mx geomR geomC sortR sortC); eassumption.
Qed.
Print Assumptions C09_reinitialise_doubles_operator_refuted.

(** C10.  Complex scalars over the reals.  [dat] gives the block of each leaf (leaves
    identified by their index ranges). *)
Theorem C10_frobenius_norm :
  forall (G : Type) (adm : cdata G -> cdata G -> bool) (mx : Z)
    (geomR geomC : list nat -> G) (sortR sortC : G -> list nat -> list nat),
  (forall g l, Permutation (sortR g l) l) -> (forall g l, Permutation (sortC g l) l) ->
  forall (n m : nat) (mbsR mbsC : Z) tr tc pr pc l,
  clusterTree geomR sortR n mbsR = Some (tr, pr) ->
  clusterTree geomC sortC m mbsC = Some (tc, pc) ->
  leafNodes (blockClusterTree adm mx tr tc) = Some l ->
  forall (dat : leafblk -> hdata CR),
  (forall s, In s l ->
     hd_shape (dat (leaf_of s)) (size_of (brow (sdata s))) (size_of (bcol (sdata s)))) ->
  forall M : mat CR,
  (forall s i j h g, In s l -> i < n -> j < m ->
      mapOriginalDofToHMatDof pr i = Some h -> mapOriginalDofToHMatDof pc j = Some g ->
      covers h g s = true ->
      M i j = hentry (dat (leaf_of s)) (h - clo (sdata (brow (sdata s)))) (g - clo (sdata (bcol (sdata s))))) ->
  frobeniusNorm (fun b => Some (dat b)) (blockClusterTree adm mx tr tc)
  = Some (sqrt (bsum (K := Rsr) (seq 0 n) (fun i => bsum (K := Rsr) (seq 0 m) (fun j => cabs2 (M i j))))).
Proof.
  intros. eapply (frob_correct adm mx geomR geomC sortR sortC); eassumption.
Qed.
Print Assumptions C10_frobenius_norm.

(** C13, partial: blocks within the cutoff, or not admissible, hold what the
    compressor computes.  Missing: the cutoff itself, refuted below. *)
Theorem C13_near_blocks_compressed_partial :
  forall (K : star_ring) far admissible b (impl : hdata K),
  far = false \/ admissible = false ->
  fst (compressBlock far admissible b impl) = impl.
Proof. intros K far admissible b impl H. destruct far, admissible; reflexivity. Qed.
Print Assumptions C13_near_blocks_compressed_partial.

(** C13 refuted, for every block beyond the cutoff: the unconditional call at line 43
    evaluates the block and overwrites the zero block. *)
Theorem C13_cutoff_has_no_effect_refuted :
  forall (K : star_ring) b (impl : hdata K),
  compressBlock true true b impl = (impl, 1).
Proof. reflexivity. Qed.
Print Assumptions C13_cutoff_has_no_effect_refuted.

(** ---- concrete instance: 4 x 3 H-matrix over the integers ---- *)
Definition zisz (x : Zsr) : bool := Z.eqb x 0.
Lemma zisz_ok : forall x : Zsr, zisz x = true <-> x = zero.
Proof. intros x. apply Z.eqb_eq. Qed.

Definition ex_blk (l : list (stree (bdata (list nat)))) (id : nat) : hdata Zsr :=
  match nth_error l id with
  | Some s =>
    let r := size_of (brow (sdata s)) in let c := size_of (bcol (sdata s)) in
    if badm (sdata s)
    then LowRank r 1 (fun i _ => Z.of_nat (i + id) : Zsr) 1 c (fun _ j => Z.of_nat (j + 1) : Zsr)
    else Dense r c (fun i j => Z.of_nat (10 * id + 3 * i + j) : Zsr)
  | None => Dense 0 0 (fun _ _ => zero)
  end.
Lemma ex_blk_shape l id s : nth_error l id = Some s ->
  hd_shape (ex_blk l id) (size_of (brow (sdata s))) (size_of (bcol (sdata s))).
Proof.
  intros E. unfold ex_blk. rewrite E. destruct (badm (sdata s)); cbn; auto.
Qed.

(** the hypotheses of C06/C07/C09 are met, by data with low-rank and dense leaves, and
    the product of a concrete vector is a concrete vector *)
Definition ex_run (n m : nat) : option (nat * bool * list Z) :=
  match clusterTree ex_geom ex_sort n 1, clusterTree ex_geom ex_sort m 1 with
  | Some (tr, pr), Some (tc, pc) =>
    match leafNodes (blockClusterTree ex_adm 100 tr tc) with
    | Some l =>
      match apply_local zisz (map leaf_of l) pr pc n m 0
              (hm_initialize (ex_blk l) 0 1 (length l) (hm_new Zsr))
              (tasks (map leaf_of l) NOTRANS (seq 0 (length l))) (fun _ _ => 77%Z)
              (fun i _ => Z.of_nat (i + 1)) (fun i _ => Z.of_nat i) NOTRANS 2%Z 5%Z with
      | Some y => Some (length l, existsb (fun s => badm (sdata s)) l, map (fun i => y i 0) (seq 0 n))
      | None => None
      end
    | None => None
    end
  | _, _ => None
  end.
Example C06_instance : ex_run 4 3 = Some (10, true, [112; 91; 270; 481]%Z).
Proof. vm_compute. reflexivity. Qed.

Example C13_instance :
  compressBlock true true (Build_leafblk 0 1 0 1) (Dense 1 1 (fun _ _ => 5%Z : Zsr))
  = (Dense 1 1 (fun _ _ => 5%Z : Zsr), 1).
Proof. reflexivity. Qed.
