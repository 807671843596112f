From Coq Require Import List Arith Lia Bool Ring.
From Verif Require Import Base CxRing AsmModel MatAlg ArrayModel LocalCacheProofs IntgModel IntgSpec IntgProofs IntgProofs2 IntgProofs3 IntgProofs4 IntgOpModel IntgOpSpec IntgOpProofs.
Import ListNotations.
Set Implicit Arguments.

(** Real basis functions, complex kernel. *)
Section S.
  Variable F : star_ring.
  Hypothesis Freal : forall x : F, conj x = x.
  Add Ring FringS : (sr_ring F).
  Notation C := (Cx F).
  Definition cElement (E : element F) : element C := Element (cGeom (e_geom E)) (fun i j p => cre F (e_jit E i j p)).
  Definition cBasis (B : basis F) : basis C := Basis C (b_dofs B) (b_points B) (fun f p => cre F (b_value B f p)) (fun d f p => cre F (b_deriv B d f p)).
  Lemma cre_sub (x y : F) : cre F (sub x y) = sub (cre F x) (cre F y).
  Proof. apply injective_projections; unfold cre; cbn; ring. Qed.
  Lemma eval_cre e E B f p d : evalElementary e (cElement E) (cBasis B) f p d = cre F (evalElementary e E B f p d).
  Proof.
    destruct e; cbn [evalElementary cElement cBasis e_geom e_jit cGeom g_normal b_value b_deriv]; [reflexivity|symmetry; apply cre_mul|].
    destruct d as [|[|d]]; rewrite !cre_sub, !cre_mul, !cre_add, !cre_mul; reflexivity.
  Qed.
  Lemma map_flat_map A B C0 (h : B -> C0) (k : A -> list B) l : map h (flat_map k l) = flat_map (fun a => map h (k a)) l.
  Proof. induction l; cbn; [reflexivity|]. rewrite map_app, IHl. reflexivity. Qed.
  Lemma transform_cre ts E B : map (@complexify F) (transform ts E B) = transform ts (cElement E) (cBasis B).
  Proof.
    unfold transform. rewrite map_map. apply map_ext. intros e. unfold complexify. cbn [x0 x1 x2 st3 cBasis b_dofs b_points]. f_equal.
    rewrite map_flat_map. apply flat_map_ext. intros p. rewrite map_flat_map. apply flat_map_ext. intros f. rewrite map_map. apply map_ext. intros d. symmetry. apply eval_cre.
  Qed.
  Lemma reals_cre (l : list F) : @reals C (map (@cre F) l).
  Proof. unfold reals. apply Forall_forall. intros z Hz. apply in_map_iff in Hz. destruct Hz as (x & <- & _). apply cre_conj. Qed.
  Lemma onElement_cre E B w : onElement E B w -> onElement (cElement E) (cBasis B) (map (@cre F) w).
  Proof.
    intros [A (P1 & P2 & P3) (R1 & R2 & R3)]. constructor; cbn [cElement cBasis b_dofs b_points e_geom cGeom g_ie g_normal]; auto.
    - rewrite !map_length. auto.
    - split; [apply reals_cre|]. split; [apply reals_cre|]. intros. apply cre_conj.
  Qed.
  Lemma transformations_real (op : operator C) blas : transformations (realPart op) blas = transformations op blas.
  Proof. destruct op; reflexivity. Qed.

  Theorem split_both blas (op : operator C) testE trialE testB trialB k w :
    onElement testE testB w -> onElement trialE trialB w ->
    isMatrix (localPairsSplit blas op testE trialE testB trialB k w) (b_dofs testB) (b_dofs trialB)
      (pairForm op (cElement testE) (cElement trialE) (cBasis testB) (cBasis trialB) k (map (@cre F) w)).
  Proof.
    intros O1 O2. unfold localPairsSplit. rewrite !transformations_real. destruct blas.
    - eapply isMatrix_ext; [|apply nontensorSplit_ok; [exact Freal| | |]].
      + intros f g Hf Hg. rewrite !transform_cre.
        pose proof (@pair_entry_form C (cElement testE) (cElement trialE) (cBasis testB) (cBasis trialB) (map (@cre F) w)
          (onElement_cre O1) (onElement_cre O2) op k f g) as X. rewrite map_length in X. apply X; auto.
      + apply pair_data; auto. intros X. apply (@op_nonempty C op true). exact X.
      + apply pairs_ok.
      + destruct op; cbn; unfold kernelCount; auto.
    - rewrite !transform_cre.
      pose proof (@pairs_both C (cElement testE) (cElement trialE) (cBasis testB) (cBasis trialB) (map (@cre F) w)
        (onElement_cre O1) (onElement_cre O2) false op k) as X. unfold localPairs in X. rewrite map_length in X. apply X.
  Qed.
End S.
