(** C01-C05: cluster trees and block cluster trees. *)
From Verif Require Import Base HMatTreeModel HMatTreeSpec HMatTreeProofs HMatBlockProofs.

(** C01.  For every geometry ([geom], and [sortf] = any outcome of the sorts), every
    number of dofs n > 0 and every minBlockSize (any int), construction succeeds, the
    root range is [0,n), inner nodes have two non-empty adjacent children that make up
    the parent's range, and the leaf ranges tile [0,n) in order. *)
Theorem C01_cluster_ranges_tile :
  forall (G : Type) (geom : list nat -> G) (sortf : G -> list nat -> list nat),
  (forall g l, Permutation (sortf g l) l) ->
  forall (n : nat) (minBlockSize : Z), 0 < n ->
  exists t p, clusterTree geom sortf n minBlockSize = Some (t, p)
    /\ clo (sdata t) = 0 /\ chi (sdata t) = n
    /\ (forall k s, occurs k s t ->
         schildren s = [] \/ exists l r, schildren s = [l; r] /\
           clo (sdata l) = clo (sdata s) /\ chi (sdata l) = clo (sdata r) /\
           chi (sdata r) = chi (sdata s) /\
           clo (sdata l) < chi (sdata l) /\ clo (sdata r) < chi (sdata r))
    /\ flat_map (fun l => seq (clo (sdata l)) (chi (sdata l) - clo (sdata l))) (dfs_leaves t)
       = seq 0 n.
Proof. exact cluster_ranges. Qed.
Print Assumptions C01_cluster_ranges_tile.

(** C02.  The two dof maps are total, in range and mutually inverse, and the geometric
    data of every node is that of exactly the dofs whose H-matrix index is in its range. *)
Theorem C02_dof_permutation_bijective :
  forall (G : Type) (geom : list nat -> G) (sortf : G -> list nat -> list nat),
  (forall g l, Permutation (sortf g l) l) ->
  forall (n : nat) (minBlockSize : Z) t p,
  clusterTree geom sortf n minBlockSize = Some (t, p) ->
  (forall i, i < n -> exists h, h < n /\ mapOriginalDofToHMatDof p i = Some h
                               /\ mapHMatDofToOriginalDof p h = Some i)
  /\ (forall h, h < n -> exists i, i < n /\ mapHMatDofToOriginalDof p h = Some i
                               /\ mapOriginalDofToHMatDof p i = Some h)
  /\ (forall k s, occurs k s t ->
        exists l, cgeo (sdata s) = geom l /\ NoDup l /\
          forall i, In i l <-> exists h, clo (sdata s) <= h < chi (sdata s)
                                     /\ mapHMatDofToOriginalDof p h = Some i).
Proof. exact cluster_perm_bij. Qed.
Print Assumptions C02_dof_permutation_bijective.

(** C03.  For 1 <= minBlockSize < 2^31: a node is a leaf iff it holds at most
    minBlockSize dofs, siblings differ by at most one dof, a node at depth k holds
    between floor(n/2^k) and ceil(n/2^k) dofs and its depth is below 1 + log2 n. *)
Theorem C03_cluster_sizes_and_depth :
  forall (G : Type) (geom : list nat -> G) (sortf : G -> list nat -> list nat),
  (forall g l, Permutation (sortf g l) l) ->
  forall (n : nat) (minBlockSize : Z) t p,
  (1 <= minBlockSize < 2 ^ 31)%Z ->
  clusterTree geom sortf n minBlockSize = Some (t, p) ->
  (forall k s, occurs k s t ->
     (Z.of_nat (size_of s) <= minBlockSize)%Z <-> isLeaf s = true)
  /\ (forall k s, occurs k s t -> forall l r, schildren s = [l; r] ->
        size_of l = size_of r \/ size_of l = size_of r + 1)
  /\ (forall k s, occurs k s t ->
        size_of s * 2 ^ k < n + 2 ^ k /\ n < (size_of s + 1) * 2 ^ k /\ 2 ^ k < n + n).
Proof. exact cluster_sizes. Qed.
Print Assumptions C03_cluster_sizes_and_depth.

(** C04.  The leaves returned by leafNodes() cover every matrix entry exactly once and
    lie inside the matrix; numberOfLeafs() is their number.  Any admissibility
    function, any maxBlockSize. *)
Theorem C04_block_leaves_tile_matrix :
  forall (G : Type) (adm : cdata G -> cdata G -> bool) (maxBlockSize : Z)
    (geomR geomC : list nat -> G) (sortR sortC : G -> list nat -> list nat),
  (forall g l, Permutation (sortR g l) l) ->
  (forall g l, Permutation (sortC g l) l) ->
  forall (n m : nat) (mbsR mbsC : Z) tr tc pr pc,
  clusterTree geomR sortR n mbsR = Some (tr, pr) ->
  clusterTree geomC sortC m mbsC = Some (tc, pc) ->
  exists l, leafNodes (blockClusterTree adm maxBlockSize tr tc) = Some l
    /\ numberOfLeafs (blockClusterTree adm maxBlockSize tr tc) = length l
    /\ (forall i j, i < n -> j < m -> length (filter (covers i j) l) = 1)
    /\ (forall s, In s l ->
          clo (sdata (brow (sdata s))) < chi (sdata (brow (sdata s))) <= n /\
          clo (sdata (bcol (sdata s))) < chi (sdata (bcol (sdata s))) <= m).
Proof. exact block_tiling. Qed.
Print Assumptions C04_block_leaves_tile_matrix.

(** C05, partial.  Missing from the full claim: see the two refutations below.  What
    holds: an unflagged leaf has an indivisible cluster; a flagged leaf satisfies the
    size bound unless one of its clusters is indivisible; a refined block was not
    flagged or too large; the flag of the root is the admissibility of its own pair and
    the flag of any other block is the admissibility of its PARENT's cluster pair. *)
Theorem C05_admissibility_flags_partial :
  forall (G : Type) (adm : cdata G -> cdata G -> bool) (maxBlockSize : Z)
    (tr tc : stree (cdata G)) k s,
  occurs k s (blockClusterTree adm maxBlockSize tr tc) ->
  let d := sdata s in
  (isLeaf s = true ->
     (badm d = false -> isLeaf (brow d) = true \/ isLeaf (bcol d) = true) /\
     (badm d = true ->
        (tooLarge maxBlockSize (csize (sdata (brow d))) = false /\
         tooLarge maxBlockSize (csize (sdata (bcol d))) = false)
        \/ isLeaf (brow d) = true \/ isLeaf (bcol d) = true)) /\
  (isLeaf s = false ->
     badm d = false \/ tooLarge maxBlockSize (csize (sdata (brow d))) = true
     \/ tooLarge maxBlockSize (csize (sdata (bcol d))) = true) /\
  (k = 0 -> badm d = adm (sdata (brow d)) (sdata (bcol d))) /\
  (forall k', k = S k' ->
     exists q, occurs k' q (blockClusterTree adm maxBlockSize tr tc) /\ In s (schildren q) /\
       In (brow d) (schildren (brow (sdata q))) /\ In (bcol d) (schildren (bcol (sdata q))) /\
       badm d = adm (sdata (brow (sdata q))) (sdata (bcol (sdata q)))).
Proof. exact block_flags. Qed.
Print Assumptions C05_admissibility_flags_partial.

(** ---- concrete instances ---- *)
(** Seven dofs on a line, in the order 0..6 (geometry: the index list itself). *)
Definition ex_geom (l : list nat) : list nat := l.
Definition ex_sort (_ : list nat) (l : list nat) : list nat := rev l.
Lemma ex_sort_perm : forall g l, Permutation (ex_sort g l) l.
Proof. intros g l. symmetry. apply Permutation_rev. Qed.

Example C01_C02_C03_instance :
  exists t p, clusterTree ex_geom ex_sort 7 2 = Some (t, p) /\ length (dfs_leaves t) = 4
    /\ h2o p = [3; 4; 6; 5; 2; 1; 0] /\ o2h p = [6; 5; 4; 0; 1; 3; 2].
Proof. vm_compute. do 2 eexists. repeat split; reflexivity. Qed.

(** admissible iff the index ranges are disjoint (dofs on a line) *)
Definition ex_adm (a b : cdata (list nat)) : bool := (chi a <=? clo b) || (chi b <=? clo a).

Example C04_instance :
  exists tr pr tc pc l,
    clusterTree ex_geom ex_sort 7 1 = Some (tr, pr) /\
    clusterTree ex_geom ex_sort 5 2 = Some (tc, pc) /\
    leafNodes (blockClusterTree ex_adm 100 tr tc) = Some l /\ length l = 10.
Proof.
  do 5 eexists. split; [vm_compute; reflexivity|]. split; [vm_compute; reflexivity|].
  split; vm_compute; reflexivity.
Qed.

(** C05, first refutation: a leaf flagged admissible may exceed maxBlockSize (the
    adjustment is made on a copy of the node data).  Row tree with a single dof, column
    tree with 3, maxBlockSize 2, everything admissible: one leaf, flagged, 3 columns. *)
Theorem C05_max_block_size_refuted :
  exists (tr tc : stree (cdata (list nat))) pr pc l s,
    clusterTree ex_geom ex_sort 1 1 = Some (tr, pr) /\
    clusterTree ex_geom ex_sort 3 1 = Some (tc, pc) /\
    leafNodes (blockClusterTree (fun _ _ => true) 2 tr tc) = Some l /\ In s l /\
    badm (sdata s) = true /\ size_of (bcol (sdata s)) = 3.
Proof.
  do 6 eexists. split; [vm_compute; reflexivity|]. split; [vm_compute; reflexivity|].
  split; [vm_compute; reflexivity|]. split; [left; reflexivity|].
  split; vm_compute; reflexivity.
Qed.
Print Assumptions C05_max_block_size_refuted.

(** C05, second refutation: a block whose own cluster pair is admissible and within
    maxBlockSize is nevertheless refined, because its flag was computed from the parent
    pair. *)
Theorem C05_admissible_pair_refined_refuted :
  exists (tr tc : stree (cdata (list nat))) pr pc k s,
    clusterTree ex_geom ex_sort 4 1 = Some (tr, pr) /\
    clusterTree ex_geom ex_sort 4 1 = Some (tc, pc) /\
    occurs k s (blockClusterTree ex_adm 100 tr tc) /\
    ex_adm (sdata (brow (sdata s))) (sdata (bcol (sdata s))) = true /\
    size_of (brow (sdata s)) <= 100 /\ size_of (bcol (sdata s)) <= 100 /\
    isLeaf s = false.
Proof.
  eexists _, _, _, _, 1, _. split; [vm_compute; reflexivity|]. split; [vm_compute; reflexivity|].
  split.
  { vm_compute. eapply occ_child; [right; left; reflexivity|apply occ_here]. }
  split; [reflexivity|]. split; [cbn; lia|]. split; [cbn; lia|reflexivity].
Qed.
Print Assumptions C05_admissible_pair_refined_refuted.
