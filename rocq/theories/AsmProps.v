From Verif Require Import Base AsmModel AsmSpec ParProofs AsmProofs DofListModel DofListSpec DofListProofs CacheProofs HBlockModel HBlockProofs.
Set Implicit Arguments.

(** C33: whatever distribution of the trial elements over threads and whatever interleaving of
    the single loads and stores, assembly never faults, never deadlocks, ends after a bounded
    number of steps, and then holds the Galerkin matrix. *)
Theorem C33_dense_assembly (K : star_ring) (T U : space K) A sched :
  dofsInRange T -> dofsInRange U -> Permutation (concat sched) (seq 0 (length (sp_dofs U))) ->
  alwaysComputes (denseStart T U A sched) (sp_count T) (sp_count U) (galerkin T U A).
Proof. exact (@dense_computes K T U A sched). Qed.
Print Assumptions C33_dense_assembly.

(** the same for dense potential operators *)
Theorem C33_dense_potential (K : star_ring) (U : space K) P points comps sched :
  dofsInRange U -> Permutation (concat sched) (seq 0 (length (sp_dofs U))) ->
  alwaysComputes (potentialStart U P points comps sched) (points * comps) (sp_count U)
    (fun r c => potential U P (r / comps) (r mod comps) c).
Proof. exact (@potential_computes K U P points comps sched). Qed.
Print Assumptions C33_dense_potential.

(** C34: an accepted request computes the submatrix of the Galerkin matrix, for every iteration
    order of the two hash maps, every distribution and every interleaving; requests with a
    negative bound or an end beyond the dof counts throw. *)
Theorem C34_dense_block (K : star_ring) (T U : space K) A r0 r1 c0 c1 :
  g2lInverse T -> g2lInverse U ->
  (blockVerdictOf T U r0 r1 c0 c1 = BAccepted <->
     (0 <= r0 <= r1)%Z /\ (r1 <= Z.of_nat (sp_count T))%Z /\ (0 <= c0 <= c1)%Z /\ (c1 <= Z.of_nat (sp_count U))%Z) /\
  ((r0 < 0)%Z \/ (r1 < 0)%Z \/ (c0 < 0)%Z \/ (c1 < 0)%Z \/ (Z.of_nat (sp_count T) < r1)%Z \/ (Z.of_nat (sp_count U) < c1)%Z ->
     blockVerdictOf T U r0 r1 c0 c1 = BThrows) /\
  (blockVerdictOf T U r0 r1 c0 c1 = BAccepted -> exists tl ul,
     gatherElements T r0 r1 = Some tl /\ gatherElements U c0 c1 = Some ul /\
     forall tests sched, Permutation tests tl -> Permutation (concat sched) ul ->
       alwaysComputes (blockStart T U A r0 r1 c0 c1 tests sched) (Z.to_nat (r1 - r0)) (Z.to_nat (c1 - c0))
         (fun r c => galerkin T U A (Z.to_nat r0 + r) (Z.to_nat c0 + c))).
Proof.
  intros GT GU.
  assert (V : blockVerdictOf T U r0 r1 c0 c1 = BAccepted <->
     (0 <= r0 <= r1)%Z /\ (r1 <= Z.of_nat (sp_count T))%Z /\ (0 <= c0 <= c1)%Z /\ (c1 <= Z.of_nat (sp_count U))%Z).
  { unfold blockVerdictOf, overCount.
    destruct (Z.ltb_spec c1 0), (Z.ltb_spec (Z.of_nat (sp_count U)) c1), (Z.ltb_spec r1 0), (Z.ltb_spec (Z.of_nat (sp_count T)) r1),
      (Z.ltb_spec c0 0), (Z.ltb_spec r0 0), (Z.ltb_spec r1 r0), (Z.ltb_spec c1 c0); cbn [orb]; split; try discriminate; try lia; reflexivity. }
  split; [exact V|]. split.
  - unfold blockVerdictOf, overCount.
    destruct (Z.ltb_spec c1 0), (Z.ltb_spec (Z.of_nat (sp_count U)) c1), (Z.ltb_spec r1 0), (Z.ltb_spec (Z.of_nat (sp_count T)) r1),
      (Z.ltb_spec c0 0), (Z.ltb_spec r0 0); cbn [orb]; intros; try reflexivity; lia.
  - intros H. apply V in H. destruct H as (Hr & Hr1 & Hc & Hc1).
    destruct (@gather_ok K T r0 r1 GT ltac:(lia) Hr1) as (tl & ET & _ & _).
    destruct (@gather_ok K U c0 c1 GU ltac:(lia) Hc1) as (ul & EU & _ & _).
    exists tl, ul. split; [exact ET|]. split; [exact EU|]. intros tests sched PT PU. eapply block_computes; eauto; lia.
Qed.
Print Assumptions C34_dense_block.

(** C35: every rectangle of H-matrix indices, all four evaluation paths. *)
Theorem C35_matrix_block (K : star_ring) (T U : space K) pT pU terms r0 r1 c0 c1 :
  g2lInverse T -> g2lInverse U -> validPerm T pT -> validPerm U pU ->
  r0 <= r1 <= length pT -> c0 <= c1 <= length pU ->
  exists m, computeMatrixBlock T U pT pU terms 0 r0 r1 c0 c1 = Some m /\ m_rows m = r1 - r0 /\ m_cols m = c1 - c0 /\
    forall r c, r < r1 - r0 -> c < c1 - c0 ->
      m_at m r c = bsum terms (fun t => mul (fst t) (galerkin T U (snd t) (nth (r0 + r) pT 0) (nth (c0 + c) pU 0))).
Proof. exact (@block_ok K T U pT pU terms r0 r1 c0 c1). Qed.
Print Assumptions C35_matrix_block.
(** with sparse terms the accessor always throws (addBlock is not implemented) *)
Theorem C35_sparse_terms_throw (K : star_ring) (T U : space K) pT pU terms sparse r0 r1 c0 c1 :
  0 < sparse -> computeMatrixBlock T U pT pU terms sparse r0 r1 c0 c1 = None.
Proof. exact (@sparse_throws K T U pT pU terms sparse r0 r1 c0 c1). Qed.
Print Assumptions C35_sparse_terms_throw.

(** C36: the accessor for potential operators on its three paths equals the entry that dense
    assembly (C33_dense_potential) computes at row pR[r0+r] and column pU[c0+c]. *)
Theorem C36_potential_block (K : star_ring) (U : space K) pR pU comps P r0 r1 c0 c1 :
  g2lInverse U -> validPerm U pU -> 0 < comps ->
  r0 <= r1 <= length pR -> c0 <= c1 <= length pU ->
  exists m, computePotentialBlock U pR pU comps P r0 r1 c0 c1 = Some m /\ m_rows m = r1 - r0 /\ m_cols m = c1 - c0 /\
    forall r c, r < r1 - r0 -> c < c1 - c0 ->
      let row := nth (r0 + r) pR 0 in
      m_at m r c = potential U P (row / comps) (row mod comps) (nth (c0 + c) pU 0).
Proof. exact (@potential_block_ok K U pR pU comps P r0 r1 c0 c1). Qed.
Print Assumptions C36_potential_block.

(** C37 *)
Theorem C37_dof_lists (K : star_ring) (S : space K) p2o start count :
  g2lInverse S -> validPerm S p2o -> start + count <= length p2o ->
  exists L, getLists S p2o start count = Some L /\
    dl_original L = map (fun i => nth (start + i) p2o 0) (seq 0 count) /\
    Permutation (entries L) (wanted S p2o start count) /\ NoDup (wanted S p2o start count) /\
    (count <> 1 -> NoDup (map fst (dl_groups L))).
Proof.
  intros HS Hp Hc. assert (N : NoDup (wanted S p2o start count)) by (eapply NoDup_of_map; apply wanted_NoDup).
  destruct (Nat.eq_dec count 1) as [->|Hne].
  - destruct (@getLists_ok K S p2o start 1 HS Hp Hc) as (L & E & O & P). exists L. repeat split; auto. congruence.
  - destruct (@range_ok K S p2o start count HS Hp Hc) as (L & E & O & P & Q). exists L.
    unfold getLists. destruct (Nat.eqb_spec count 1); [contradiction|]. auto.
Qed.
Print Assumptions C37_dof_lists.
(** any number of concurrent get calls on the cache, any interleaving *)
Theorem C37_cache (K : star_ring) (S : space K) p2o (ks : list (nat * nat)) :
  cacheTransparent (fun a b => (fst a =? fst b) && (snd a =? snd b)) (fun k => getLists S p2o (fst k) (snd k)) ks.
Proof.
  apply cache_transparent. intros [a b] [c d]. cbn. rewrite andb_true_iff, !Nat.eqb_eq. split; [intros [-> ->]; reflexivity|intros E; inversion E; auto].
Qed.
Print Assumptions C37_cache.

(** C38 *)
Theorem C38_component_lists p2o comps start count :
  0 < comps -> start + count <= length p2o ->
  exists L, getComponents p2o comps start count = Some L /\
    Permutation (centries L) (cwanted p2o comps start count) /\ NoDup (map fst L).
Proof. exact (@getComponents_ok p2o comps start count). Qed.
Print Assumptions C38_component_lists.
Theorem C38_cache p2o comps (ks : list (nat * nat)) :
  cacheTransparent (fun a b => (fst a =? fst b) && (snd a =? snd b)) (fun k => getComponents p2o comps (fst k) (snd k)) ks.
Proof.
  apply cache_transparent. intros [a b] [c d]. cbn. rewrite andb_true_iff, !Nat.eqb_eq. split; [intros [-> ->]; reflexivity|intros E; inversion E; auto].
Qed.
Print Assumptions C38_cache.

(** ---- a concrete space: two triangles sharing an edge, dof 2 of element 1 switched off,
    one dof with an imaginary weight ---- *)
Definition GI (a b : Z) : GIsr := (a, b).
Definition twoTri : space GIsr :=
  Space 3 [[(0%Z, GI 1 0); (1%Z, GI 1 0); (2%Z, GI 0 1)]; [((-1)%Z, GI 1 0); (2%Z, GI 2 0); (1%Z, GI (-1) 0)]]
    (fun d => match d with
              | 0 => Some [(0, 0, GI 1 0)]
              | 1 => Some [(0, 1, GI 1 0); (1, 2, GI (-1) 0)]
              | 2 => Some [(1, 1, GI 2 0); (0, 2, GI 0 1)]
              | _ => None end).
Example twoTri_inRange : dofsInRange twoTri.
Proof. intros ds g w [<-|[<-|[]]] H; cbn in H; repeat (destruct H as [H|H]; [inversion H; subst; cbn; lia|]); destruct H. Qed.
Example twoTri_inverse : g2lInverse twoTri.
Proof.
  assert (S : forall d e i w, In (e, i, w) (support twoTri d) <-> exists ds, nth_error (sp_dofs twoTri) e = Some ds /\ nth_error ds i = Some (Z.of_nat d, w)) by (intros; apply in_support).
  intros d Hd. cbn in Hd.
  destruct d as [|[|[|d]]]; [| | |lia]; (eexists; split; [reflexivity|]; split;
    [repeat constructor; cbn; intuition discriminate|]); intros e i w; rewrite <- S; cbn; intuition.
Qed.
Example C33_meets : Permutation (concat [[1]; []; [0]]) (seq 0 (length (sp_dofs twoTri))).
Proof. cbn. apply perm_swap. Qed.
Definition sampleA (e f i j : nat) : GIsr := GI (Z.of_nat (e + 2 * f + 1)) (Z.of_nat i - Z.of_nat j).
Example C33_value : galerkin twoTri twoTri sampleA 2 1 = GI (-3) 4.
Proof. vm_compute. reflexivity. Qed.
Example C35_value : match computeMatrixBlock twoTri twoTri [2; 0; 1] [1; 2; 0] [(GI 1 0, sampleA)] 0 0 3 0 1 with
  Some m => Some (m_at m 0 0) | None => None end = Some (GI (-3) 4).
Proof. vm_compute. reflexivity. Qed.
Example C34_accepts : blockVerdictOf twoTri twoTri 1 3 0 2 = BAccepted.
Proof. reflexivity. Qed.
Example C35_perm : validPerm twoTri [2; 0; 1].
Proof. intros d H. cbn in *. intuition lia. Qed.
Example C38_value : getComponents [5; 0; 3; 1; 2; 4] 3 1 3 = Some [(0, [(0, 0); (1, 2)]); (1, [(0, 1)])].
Proof. reflexivity. Qed.

(** C68: a request with start behind end is not rejected; the code runs into undefined behaviour. *)
Theorem C68_reversed_range_partial (K : star_ring) (T U : space K) r0 r1 c0 c1 :
  (r1 < r0)%Z \/ (c1 < c0)%Z ->
  blockVerdictOf T U r0 r1 c0 c1 <> BAccepted /\
  (blockVerdictOf T U r0 r1 c0 c1 = BThrows <->
     (r0 < 0)%Z \/ (r1 < 0)%Z \/ (c0 < 0)%Z \/ (c1 < 0)%Z \/ (Z.of_nat (sp_count T) < r1)%Z \/ (Z.of_nat (sp_count U) < c1)%Z).
Proof.
  intros H. unfold blockVerdictOf, overCount.
  destruct (Z.ltb_spec c1 0), (Z.ltb_spec (Z.of_nat (sp_count U)) c1), (Z.ltb_spec r1 0), (Z.ltb_spec (Z.of_nat (sp_count T)) r1),
      (Z.ltb_spec c0 0), (Z.ltb_spec r0 0), (Z.ltb_spec r1 r0), (Z.ltb_spec c1 c0); cbn [orb];
      (split; [discriminate || lia|]); split; (discriminate || lia || reflexivity).
Qed.
Print Assumptions C68_reversed_range_partial.
Theorem C68_reversed_range_refuted :
  exists (T U : space Zsr), g2lInverse T /\ g2lInverse U /\ blockVerdictOf T U 2 1 0 1 <> BThrows.
Proof.
  exists (Space 2 [] (fun _ => Some [])), (Space 2 [] (fun _ => Some [])).
  assert (G : g2lInverse (Space (K := Zsr) 2 [] (fun _ => Some []))).
  { intros d _. exists []. split; [reflexivity|]. split; [constructor|]. intros e i w. split; [intros []|]. intros (ds & E & _). destruct e; discriminate. }
  split; [exact G|]. split; [exact G|]. discriminate.
Qed.
Print Assumptions C68_reversed_range_refuted.
