(** Function spaces from the factory function_space *)
From Coq Require Import List ZArith Bool Lia Permutation.
Import ListNotations.
From Verif Require Import SegModel FspModel FspSpec FspProofs FspProofs2.
Open Scope Z_scope.

(** C122: for arguments with a non-negative order and no domains where they are not supported, the factory succeeds exactly
    on the documented combinations, and then returns the space asked for *)
Theorem C122_factory_partial a : 0 <= a_order a -> a_domains a = None \/ restrictable (a_kind a) = true ->
  ((exists s, functionSpace a = Some s) <-> supported a) /\ (forall s, functionSpace a = Some s -> asRequested a s).
Proof.
  intros O D. split.
  - split; [intros (s & H); eapply requested_ok; eauto|apply supported_succeeds].
  - intros s H. eapply requested_ok; eauto.
Qed.
Theorem C122_options a s : functionSpace a = Some s -> optionsKept a s.
Proof.
  intros H D. split.
  - intro K. destruct (p_inv H K) as (c & d & C & _ & ->). cbn [coreOf]. unfold coreSpace in C. destruct (dofMode _ _ <? 2); [discriminate|]. destruct ((1 <=? a_order a) && (a_order a <=? 10)); [|discriminate].
    destruct (a_domains a); [|contradiction]. now injection C as <-.
  - intros K O. destruct (dp_inv H K) as (c & C & ->). cbn [coreOf]. unfold coreSpace in C. destruct (dofMode _ _ <? 2); [discriminate|]. destruct ((0 <=? a_order a) && (a_order a <=? 10)); [|discriminate].
    destruct (Z.eqb_spec (a_order a) 0); [lia|]. destruct (a_domains a); [|contradiction]. injection C as <-. cbn [c_mode]. destruct (a_ref a), (a_elem a); split; reflexivity.
Qed.
(** a negative order is replaced by zero, and domains are ignored, without an error *)
Theorem C122_factory_refuted :
  (exists a s, a_order a = -1 /\ functionSpace a = Some s /\ ~ supported a /\ ~ asRequested a s) /\
  (exists a s, a_domains a = Some [1] /\ functionSpace a = Some s /\ ~ supported a /\ ~ asRequested a s).
Proof.
  split.
  - exists (defaults (Original 0) RT (-1)). eexists. split; [reflexivity|]. split; [vm_compute; reflexivity|]. split.
    + intros (O & _). discriminate O.
    + intros (_ & _ & O & _). discriminate O.
  - exists (Args (Original 0) BP 1 (Some [1]) true false true false). eexists. split; [reflexivity|]. split; [vm_compute; reflexivity|]. split.
    + intros (_ & [D|D] & _); discriminate D.
    + intros (_ & _ & _ & _ & D). discriminate D.
Qed.

(** C123: the attributes of every space *)
Theorem C123_attributes a s : functionSpace a = Some s -> attributesOk a s.
Proof. apply attributes_ok. Qed.

(** C124: equal spaces consist of the same functions; the order of the domains does not matter *)
Theorem C124_equal_spaces s t : reachable s -> reachable t -> spaceEq s t = true -> sameFunctions (coreOf s) (coreOf t).
Proof.
  intros R R'. apply reachable_made in R as (f & a & H). apply reachable_made in R' as (f' & b & H'). unfold spaceEq.
  rewrite (proj1 (key_of _ _ _ H)), (proj1 (key_of _ _ _ H')). eapply sameFunctions_of_key; eauto.
Qed.
Theorem C124_equality a b s t : functionSpace a = Some s -> functionSpace b = Some t ->
  (spaceEq s t = true <->
   a_grid a = a_grid b /\ a_kind a = a_kind b /\ a_order a = a_order b /\ a_closed a = a_closed b /\ a_strict a = a_strict b /\ a_ref a = a_ref b /\ a_elem a = a_elem b /\
   match a_domains a, a_domains b with None, None => True | Some d, Some d' => Permutation d d' | _, _ => False end).
Proof.
  intros H H'. unfold spaceEq. rewrite (proj1 (key_of _ _ _ H)), (proj1 (key_of _ _ _ H')), keyEq_iff. unfold permDomains. tauto.
Qed.
Theorem C124_segments g D D' : (forall i, In i D <-> In i D') -> openDomain g D = openDomain g D' /\ closedDomain g D = closedDomain g D'.
Proof. apply segment_ext. Qed.

Example C122_case : supported (Args (Original 0) P 2 (Some [2; 1]) true true true false).
Proof. split; [cbn; lia|]. split; [right; reflexivity|discriminate]. Qed.
Example C123_case : exists s n, functionSpace (defaults (Original 3) BNC 0) = Some s /\ nonBarySpace s = Some n /\ c_kind (coreOf n) = NC /\ gridOf s = Refined (Original 3).
Proof. eexists. eexists. split; [vm_compute; reflexivity|]. vm_compute. auto. Qed.
Example C124_case : exists s t, functionSpace (Args (Original 0) P 1 (Some [2; 1]) true false true false) = Some s /\
  functionSpace (Args (Original 0) P 1 (Some [1; 2]) true false true false) = Some t /\ spaceEq s t = true /\ coreOf s <> coreOf t.
Proof. eexists. eexists. split; [vm_compute; reflexivity|]. split; [vm_compute; reflexivity|]. split; [vm_compute; reflexivity|]. vm_compute. discriminate. Qed.
Print Assumptions C122_factory_partial.
Print Assumptions C122_factory_refuted.
Print Assumptions C122_options.
Print Assumptions C123_attributes.
Print Assumptions C124_equal_spaces.
Print Assumptions C124_equality.
Print Assumptions C124_segments.
