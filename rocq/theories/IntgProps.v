(** C97-C100: numerical integration on one pair of elements. *)
From Coq Require Import List Arith ZArith Lia Bool.
From Verif Require Import Base CxRing AsmModel MatAlg ArrayModel IntgModel IntgSpec IntgProofs IntgProofs2 IntgProofs3 IntgProofs4
  IntgOpModel IntgOpSpec IntgOpProofs IntgOpProofs2.
Import ListNotations.
Set Implicit Arguments.

(** ---- C97: tensor-product rules ---- *)

(** With matrix products, whichever of the two orders of multiplication the dof counts select. *)
Theorem C97_tensor_blas (K : star_ring) testGeom trialGeom tests trials kernels testW trialW rows cols :
  tensorData testGeom trialGeom tests trials kernels testW trialW rows cols ->
  kernelCount (length tests) (length kernels) ->
  @isMatrix K (tensorBlas testGeom trialGeom tests trials kernels testW trialW rows cols) rows cols
    (tensorEntry tests trials kernels (g_ie testGeom) (g_ie trialGeom) testW trialW).
Proof. apply tensorBlas_ok. Qed.
Print Assumptions C97_tensor_blas.

(** With the generic loops and one kernel per transformation. *)
Theorem C97_tensor_loops (K : star_ring) testGeom trialGeom tests trials kernels testW trialW rows cols :
  tensorData testGeom trialGeom tests trials kernels testW trialW rows cols -> length kernels = length tests ->
  @isMatrix K (tensorDefault Scalar testGeom trialGeom tests trials kernels testW trialW rows cols) rows cols
    (tensorEntry tests trials kernels (g_ie testGeom) (g_ie trialGeom) testW trialW).
Proof.
  intros D L. eapply isMatrix_ext; [|apply tensorDefault_ok with (h := fun f g p q => integrand tests trials (map (fun k => a4 k 0 0 p q) kernels) f g p q); [exact D|]].
  - intros f g _ _. unfold tensorEntry. apply bsum_ext. intros p _. apply bsum_ext. intros q _. do 2 f_equal. f_equal.
    unfold kernelsFor. destruct kernels as [|k [|k' r]]; auto. cbn in L. rewrite <- L. reflexivity.
  - intros f g p q _ _ _ _. rewrite scalar_functor.
    + unfold cutK4. rewrite map_map. reflexivity.
    + apply (td_match D).
    + unfold cutK4. rewrite map_length. auto.
    + apply (td_test D).
    + apply Forall_forall. intros s Hs. unfold cutK4 in Hs. apply in_map_iff in Hs. destruct Hs as (k & <- & Hk). cbn [k_rows k_cols].
      pose proof (td_kernels D) as G. unfold grid4 in G. rewrite Forall_forall in G. destruct (G _ Hk) as (A & B & _). auto.
Qed.
Print Assumptions C97_tensor_loops.

(** ---- C98: rules given by pairs of points ---- *)
Theorem C98_pairs_blas (K : star_ring) testGeom trialGeom tests trials (kernels : list (arr3 K)) w rows cols :
  pairData testGeom trialGeom tests trials w rows cols -> grid3 (length w) kernels -> kernelCount (length tests) (length kernels) ->
  isMatrix (nontensorBlas testGeom trialGeom tests trials kernels w rows cols) rows cols
    (pairEntry tests trials kernels (g_ie testGeom) (g_ie trialGeom) w).
Proof. apply nontensorBlas_ok. Qed.
Print Assumptions C98_pairs_blas.

Theorem C98_pairs_loops (K : star_ring) testGeom trialGeom tests trials (kernels : list (arr3 K)) w rows cols :
  pairData testGeom trialGeom tests trials w rows cols -> grid3 (length w) kernels -> length kernels = length tests ->
  isMatrix (nontensorDefault Scalar testGeom trialGeom tests trials kernels w) rows cols
    (pairEntry tests trials kernels (g_ie testGeom) (g_ie trialGeom) w).
Proof.
  intros D G L. eapply isMatrix_ext; [|apply nontensorDefault_ok with (h := fun f g p => integrand tests trials (map (fun k => a3 k 0 0 p) kernels) f g p p); [exact D|exact G|]].
  - intros f g _ _. unfold pairEntry. apply bsum_ext. intros p _. do 2 f_equal. f_equal.
    unfold kernelsFor. destruct kernels as [|k [|k' r]]; auto. cbn in L. rewrite <- L. reflexivity.
  - intros f g p _ _ _. rewrite scalar_functor.
    + unfold cutK3. rewrite map_map. reflexivity.
    + apply (pd_match D).
    + unfold cutK3. rewrite map_length. auto.
    + apply (pd_test D).
    + apply Forall_forall. intros s Hs. unfold cutK3 in Hs. apply in_map_iff in Hs. destruct Hs as (k & <- & Hk). cbn [k_rows k_cols].
      unfold grid3 in G. rewrite Forall_forall in G. destruct (G _ Hk) as (A & B & _). auto.
Qed.
Print Assumptions C98_pairs_loops.

(** Real basis functions, complex kernel: two real integrals combined are the complex one. *)
Theorem C98_pairs_real_basis (F : star_ring) testGeom trialGeom tests trials (kernels : list (arr3 (Cx F))) w rows cols :
  (forall x : F, conj x = x) ->
  pairData testGeom trialGeom tests trials w rows cols -> grid3 (length w) kernels -> kernelCount (length tests) (length kernels) ->
  isMatrix (nontensorSplit testGeom trialGeom tests trials kernels w rows cols) rows cols
    (pairEntry (map complexify tests) (map complexify trials) kernels (map (@cre F) (g_ie testGeom)) (map (@cre F) (g_ie trialGeom)) (map (@cre F) w)).
Proof. intros R. apply nontensorSplit_ok. exact R. Qed.
Print Assumptions C98_pairs_real_basis.

(** ---- C99: one kernel shared by several transformations ---- *)

(** The matrix-product integrals and the point-pair integrals with BLAS accept it. *)
Theorem C99_shared_kernel_partial (K : star_ring) testGeom trialGeom tests trials rows cols :
  (forall kernel testW trialW, tensorData testGeom trialGeom tests trials [kernel] testW trialW rows cols ->
     @isMatrix K (tensorBlas testGeom trialGeom tests trials [kernel] testW trialW rows cols) rows cols
       (tensorEntry tests trials (repeat kernel (length tests)) (g_ie testGeom) (g_ie trialGeom) testW trialW)) /\
  (forall kernel w, pairData testGeom trialGeom tests trials w rows cols -> grid3 (length w) [kernel] ->
     @isMatrix K (nontensorBlas testGeom trialGeom tests trials [kernel] w rows cols) rows cols
       (pairEntry tests trials (repeat kernel (length tests)) (g_ie testGeom) (g_ie trialGeom) w)).
Proof.
  assert (R : forall A n (k : A), kernelsFor n (repeat k n) = repeat k n).
  { intros A [|[|n]] k; reflexivity. }
  split.
  - intros kernel testW trialW D. eapply isMatrix_ext; [|apply tensorBlas_ok; [exact D|left; reflexivity]].
    intros f g _ _. unfold tensorEntry. rewrite R. reflexivity.
  - intros kernel w D G. eapply isMatrix_ext; [|apply nontensorBlas_ok; [exact D|exact G|left; reflexivity]].
    intros f g _ _. unfold pairEntry. rewrite R. reflexivity.
Qed.
Print Assumptions C99_shared_kernel_partial.

(** The generic functor indexes the kernels by transformation and so reads a kernel that does not exist: always,
    with two or more transformations and one kernel. *)
Theorem C99_shared_kernel_refuted (K : star_ring) testGeom trialGeom tests trials (kernel : arr4 K) testW trialW rows cols :
  tensorData testGeom trialGeom tests trials [kernel] testW trialW rows cols -> 1 < length tests ->
  tensorDefault Scalar testGeom trialGeom tests trials [kernel] testW trialW rows cols = Undefined.
Proof.
  intros D L. unfold tensorDefault. cbv zeta. rewrite (values_first (td_test D)), (values_first (td_trial D)). cbn [bind].
  destruct (assert _) as [[]| |] eqn:E; cbn [bind]; auto; [|unfold assert in E; destruct (_ && _) in E; discriminate].
  unfold fill. destruct (td_dofs D) as [Dr Dc]. destruct (td_points D) as [Pt Pr].
  destruct rows as [|rows]; [lia|]. destruct cols as [|cols]; [lia|]. destruct testW as [|a testW]; [cbn in Pt; lia|]. destruct trialW as [|b trialW]; [cbn in Pr; lia|].
  cbn [length seq tabulate loop]. unfold cutK4. cbn [map]. rewrite scalar_functor_undefined by auto. reflexivity.
Qed.
Print Assumptions C99_shared_kernel_refuted.

(** ---- C100: BLAS in quadrature changes nothing ---- *)

(** For every setting, space order, scalar types, kernel and operator: the quadrature of the operator's bilinear form. *)
Theorem C100_tensor_rule (K : star_ring) (ty : types) (s : setting) (domainOrder dualOrder : nat) (op : operator K)
    testE trialE testB trialB k testW trialW :
  onElement testE testB testW -> onElement trialE trialB trialW ->
  isMatrix (localTensor ty (shouldUseBlas s domainOrder dualOrder) op testE trialE testB trialB k testW trialW) (b_dofs testB) (b_dofs trialB)
    (tensorForm op testE trialE testB trialB k testW trialW).
Proof. intros O1 O2. destruct (shouldUseBlas _ _ _); [apply tensor_blas | apply tensor_noblas]; auto. Qed.
Print Assumptions C100_tensor_rule.

Theorem C100_pair_rule (K : star_ring) (s : setting) (domainOrder dualOrder : nat) (op : operator K) testE trialE testB trialB k w :
  onElement testE testB w -> onElement trialE trialB w ->
  isMatrix (localPairs (shouldUseBlas s domainOrder dualOrder) op testE trialE testB trialB k w) (b_dofs testB) (b_dofs trialB)
    (pairForm op testE trialE testB trialB k w).
Proof. intros O1 O2. apply pairs_both; auto. Qed.
Print Assumptions C100_pair_rule.

Theorem C100_pair_rule_real_basis (F : star_ring) (s : setting) (domainOrder dualOrder : nat) (op : operator (Cx F)) testE trialE testB trialB k w :
  (forall x : F, conj x = x) ->
  onElement testE testB w -> onElement trialE trialB w ->
  isMatrix (localPairsSplit (shouldUseBlas s domainOrder dualOrder) op testE trialE testB trialB k w) (b_dofs testB) (b_dofs trialB)
    (pairForm op (cElement testE) (cElement trialE) (cBasis testB) (cBasis trialB) k (map (@cre F) w)).
Proof. intros R O1 O2. apply split_both; auto. Qed.
Print Assumptions C100_pair_rule_real_basis.

(** ---- a concrete case: Gaussian integers, 2 test and 1 trial function, 2 and 1 points ---- *)
Section IntgExamples.
  Definition i1 : GIsr := (0, 1)%Z. Definition r (z : Z) : GIsr := (z, 0)%Z.
  Definition testGeom : geom GIsr := Geom GIsr [r 2; r 3] (fun d p => r (Z.of_nat (d + p))).
  Definition trialGeom : geom GIsr := Geom GIsr [r 5] (fun d p => r (Z.of_nat (2 * d + p))).
  Definition tests : list (arr3 GIsr) := [@Arr3 GIsr 1 2 2 [i1; r 1; r 2; (3, 1)%Z]; @Arr3 GIsr 2 2 2 [r 1; i1; r 0; r 2; i1; i1; r 3; r 1]].
  Definition trials : list (arr3 GIsr) := [@Arr3 GIsr 1 1 1 [(1, 1)%Z]; @Arr3 GIsr 2 1 1 [r 1; i1]].
  Definition k1 : arr4 GIsr := @Arr4 GIsr 1 1 2 1 [(2, 1)%Z; r 3].
  Definition k2 : arr4 GIsr := @Arr4 GIsr 1 1 2 1 [r 1; (0, -1)%Z].
  Lemma data ks : ks = [k1; k2] \/ ks = [k1] -> tensorData testGeom trialGeom tests trials ks [r 1; r 2] [r 3] 2 1.
  Proof.
    intros H. constructor; cbn; auto; try (repeat split; auto; lia).
    - split; [discriminate|]. repeat constructor; cbn; auto.
    - split; [discriminate|]. repeat constructor; cbn; auto.
    - repeat constructor.
    - destruct H as [-> | ->]; repeat constructor.
    - repeat split; repeat constructor.
  Qed.
  (** The hypotheses of C97 hold for a complex case with two kernels, and the entry is not trivial. *)
  Example C97_witness : tensorData testGeom trialGeom tests trials [k1; k2] [r 1; r 2] [r 3] 2 1 /\ kernelCount (length tests) 2 /\
    tensorEntry tests trials [k1; k2] (g_ie testGeom) (g_ie trialGeom) [r 1; r 2] [r 3] 1 0 <> zero.
  Proof. split; [apply data; auto|]. split; [right; reflexivity|]. vm_compute. intros H; discriminate. Qed.
  Example C99_witness : tensorDefault Scalar testGeom trialGeom tests trials [k1] [r 1; r 2] [r 3] 2 1 = Undefined.
  Proof. apply C99_shared_kernel_refuted; [apply data; auto | cbn; lia]. Qed.
  Definition E : element GIsr := Element trialGeom (fun i j p => r (Z.of_nat (i + 2 * j))).
  Definition B : basis GIsr := Basis GIsr 2 1 (fun f p => (Z.of_nat f, 1)%Z) (fun d f p => (1, Z.of_nat (d + f))%Z).
  Example C100_witness : onElement E B [r 3] /\
    pairForm (HelmholtzHypersingular i1) E E B B (fun _ _ => (2, 1)%Z : GIsr) [r 3] 0 1 <> zero.
  Proof.
    split.
    - constructor; cbn; auto. split; [repeat constructor|]. split; [repeat constructor|]. intros; reflexivity.
    - vm_compute. intros H; discriminate.
  Qed.
  Definition pairW : list GIsr := [r 1; r 2].
  Definition trials2 : list (arr3 GIsr) := [@Arr3 GIsr 1 1 2 [(1, 1)%Z; r 2]; @Arr3 GIsr 2 1 2 [r 1; i1; r 2; r 1]].
  Definition p1 : arr3 GIsr := @Arr3 GIsr 1 1 2 [(2, 1)%Z; r 3].
  Example C98_witness : pairData testGeom testGeom tests trials2 pairW 2 1 /\ grid3 2 [p1] /\ kernelCount (length tests) 1 /\
    pairEntry tests trials2 [p1] (g_ie testGeom) (g_ie testGeom) pairW 1 0 <> zero.
  Proof.
    split.
    - constructor; cbn; auto; try (repeat split; auto; lia).
      + split; [discriminate|]. repeat constructor; cbn; auto.
      + split; [discriminate|]. repeat constructor; cbn; auto.
      + repeat constructor.
      + repeat split; repeat constructor.
    - split; [repeat constructor|]. split; [left; reflexivity|]. vm_compute. intros H; discriminate.
  Qed.
End IntgExamples.
