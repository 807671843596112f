From Coq Require Import List ZArith Bool Lia Permutation PeanoNat.
Import ListNotations.
From Verif Require Import FspModel FspSpec FspProofs.
Open Scope Z_scope.

(** the arguments of the C++ constructor, from those of function_space *)
Definition coreOrder (a : args) : Z := match a_kind a with P | DP | BP | BDP => a_order a | _ => 0 end.
Definition coreOfKey (a : args) : option core :=
  let k := a_kind a in
  coreSpace (a_grid a) k (coreOrder a) (if restrictable k then a_domains a else None) (if restrictable k then a_closed a else true)
    (match k with P => a_strict a | _ => false end) (match k with DP => a_ref a | _ => true end) (match k with DP | P => a_elem a | _ => false end).
Lemma key_of f a s : functionSpaceWith f a = Some s -> keyOf s = Some a /\ coreOfKey a = Some (coreOf s).
Proof.
  intros H. unfold coreOfKey, coreOrder. destruct (a_kind a) eqn:K.
  1: { destruct (p_inv H K) as (c & d & C & _ & ->). cbn. auto. }
  1: { destruct (dp_inv H K) as (c & C & ->). cbn. auto. }
  1-4: (assert (V : vectorKind (a_kind a) = true) by (rewrite K; reflexivity); destruct (vec_inv H V) as (_ & c & d & h & C & _ & _ & ->); rewrite K in C; cbn; auto).
  all: destruct f; [discriminate H|]; cbn [functionSpaceWith] in H; unfold dispatch in H; rewrite K in H; cbn [restrictable].
  all: try (destruct (Z.ltb_spec 0 (a_order a)); [discriminate H|]).
  1-2: (apply baryPoly_inv in H as (c & n & d & C & _ & _ & ->); cbn [keyOf coreOf]; auto).
  1-4: (apply baryVec_inv in H as (c & n & d & p & h & C & _ & _ & _ & _ & ->); cbn [keyOf coreOf]; auto).
  1: { apply dual_inv in H as (c & d & C & _ & ->). cbn [keyOf coreOf]; auto. }
  1: { apply bc_inv in H as (c & d & p & C & _ & _ & ->). cbn [keyOf coreOf]; auto. }
  1: { apply rbc_inv in H as (c & d & p & h & C & _ & _ & _ & ->). cbn [keyOf coreOf]; auto. }
  discriminate H.
Qed.
Definition made (s : pspace) := exists f a, functionSpaceWith f a = Some s.
(** super, discontinuous and non-barycentric space are made by the factory *)
Lemma attribute_made s t : made s -> superSpace s = Some t \/ discSpace s = Some t \/ nonBarySpace s = Some t -> made t.
Proof.
  intros (f & a & H) T. assert (H0 := H). unfold made. destruct (a_kind a) eqn:K.
  1: { destruct (p_inv H K) as (c & d & C & D & ->). cbn in T. destruct T as [T|[T|T]]; injection T as <-; eauto. }
  1: { destruct (dp_inv H K) as (c & C & ->). cbn in T. destruct T as [T|[T|T]]; injection T as <-; eauto. }
  1-4: (assert (V : vectorKind (a_kind a) = true) by (rewrite K; reflexivity); destruct (vec_inv H V) as (_ & c & d & h & C & D & _ & ->); cbn in T; destruct T as [T|[T|T]]; injection T as <-; eauto).
  all: destruct f; [discriminate H|]; cbn [functionSpaceWith] in H; unfold dispatch in H; rewrite K in H.
  all: try (destruct (Z.ltb_spec 0 (a_order a)); [discriminate H|]).
  1-2: (apply baryPoly_inv in H as (c & n & d & C & N & D & ->); cbn in T; destruct T as [T|[T|T]]; injection T as <-; eauto).
  1-4: (apply baryVec_inv in H as (c & n & d & p & h & C & N & D & Sp & _ & ->); cbn in T; destruct T as [T|[T|T]]; injection T as <-; eauto).
  1: { apply dual_inv in H as (c & d & C & D & ->). cbn in T. destruct T as [T|[T|T]]; [injection T as <-; eauto..|discriminate T]. }
  1: { apply bc_inv in H as (c & d & p & C & D & Sp & ->). cbn in T. destruct T as [T|[T|T]]; [injection T as <-; eauto..|discriminate T]. }
  1: { apply rbc_inv in H as (c & d & p & h & C & D & Sp & _ & ->). cbn in T. destruct T as [T|[T|T]]; [injection T as <-; eauto..|discriminate T]. }
  discriminate H.
Qed.
Lemma reachable_made s : reachable s -> made s.
Proof.
  induction 1 as [a s H|s t _ IH T|s t _ IH T|s t _ IH T].
  - exists 5%nat, a. exact H.
  - eapply attribute_made; eauto.
  - eapply attribute_made; eauto.
  - eapply attribute_made; eauto.
Qed.

(** the key *)
Lemma insert_perm x l : Permutation (insert x l) (x :: l).
Proof. induction l as [|y l IH]; cbn; [auto|]. destruct (x <=? y); [auto|]. eapply perm_trans; [apply perm_skip, IH|apply perm_swap]. Qed.
Lemma sorted_perm l : Permutation (sorted l) l.
Proof. induction l as [|x l IH]; cbn; [auto|]. eapply perm_trans; [apply insert_perm|auto]. Qed.
Lemma insert_comm x y l : insert x (insert y l) = insert y (insert x l).
Proof.
  induction l as [|z l IH]; cbn.
  - destruct (Z.leb_spec x y), (Z.leb_spec y x); auto; try lia. replace y with x by lia. auto.
  - destruct (Z.leb_spec y z) as [A|A], (Z.leb_spec x z) as [B|B]; cbn [insert].
    + destruct (Z.leb_spec x y) as [C|C], (Z.leb_spec y x) as [D|D]; try lia.
      * replace y with x by lia. auto.
      * destruct (Z.leb_spec y z); [auto|lia].
      * destruct (Z.leb_spec x z); [auto|lia].
    + destruct (Z.leb_spec x y); [lia|]. destruct (Z.leb_spec x z); [lia|]. destruct (Z.leb_spec y z); [auto|lia].
    + destruct (Z.leb_spec y x); [lia|]. destruct (Z.leb_spec x z); [|lia]. destruct (Z.leb_spec y z); [lia|auto].
    + destruct (Z.leb_spec x z); [lia|]. destruct (Z.leb_spec y z); [lia|]. rewrite IH. auto.
Qed.
Lemma sorted_of_perm l l' : Permutation l l' -> sorted l = sorted l'.
Proof. induction 1 as [|x l l1 _ IH|x y l|l1 l2 l3 _ IH _ IH2]; unfold sorted in *; cbn [fold_right]; [auto|rewrite IH; auto|apply insert_comm|rewrite IH; exact IH2]. Qed.
Lemma listEq_iff a b : listEq a b = true <-> a = b.
Proof.
  revert b. induction a as [|x a IH]; intros [|y b]; cbn; try (split; congruence).
  rewrite andb_true_iff, Z.eqb_eq, IH. split; [intros (-> & ->); auto|intros E; injection E; auto].
Qed.
Lemma gridEq_iff a b : gridEq a b = true <-> a = b.
Proof.
  revert b. induction a as [n|a IH]; intros [m|b]; cbn; try (split; discriminate).
  - rewrite Nat.eqb_eq. split; [intros ->; reflexivity|intros E; injection E; auto].
  - rewrite IH. split; [intros ->; reflexivity|intros E; injection E; auto].
Qed.
Lemma kindEq_iff a b : kindEq a b = true <-> a = b.
Proof. split; [destruct a, b; cbn; congruence|intros ->; destruct b; reflexivity]. Qed.
Definition permDomains (x y : option (list Z)) : Prop := match x, y with None, None => True | Some d, Some d' => Permutation d d' | _, _ => False end.
Lemma keyEq_iff a b : keyEq a b = true <-> a_grid a = a_grid b /\ a_kind a = a_kind b /\ a_order a = a_order b /\ permDomains (a_domains a) (a_domains b) /\
  a_closed a = a_closed b /\ a_strict a = a_strict b /\ a_ref a = a_ref b /\ a_elem a = a_elem b.
Proof.
  unfold keyEq. rewrite !andb_true_iff, gridEq_iff, kindEq_iff, Z.eqb_eq, !Bool.eqb_true_iff.
  assert (E : match a_domains a, a_domains b with None, None => true | Some x, Some y => listEq (sorted x) (sorted y) | _, _ => false end = true <-> permDomains (a_domains a) (a_domains b)).
  { destruct (a_domains a) as [d|], (a_domains b) as [d'|]; cbn; try (split; congruence); try tauto; try (split; [congruence|tauto]).
    rewrite listEq_iff. split.
    - intros E. eapply perm_trans; [apply Permutation_sym, sorted_perm|]. rewrite E. apply sorted_perm.
    - apply sorted_of_perm. }
  rewrite E. tauto.
Qed.
Lemma sameFunctions_of_key f a s f' b t : functionSpaceWith f a = Some s -> functionSpaceWith f' b = Some t -> keyEq a b = true -> sameFunctions (coreOf s) (coreOf t).
Proof.
  intros H H' E. apply keyEq_iff in E as (G & K & O & D & C & S & R & L). apply key_of in H as (_ & H). apply key_of in H' as (_ & H').
  unfold coreOfKey in H, H'. apply core_inv in H as (A1 & A2 & A3 & A4 & _ & _ & _ & A5 & A6). apply core_inv in H' as (B1 & B2 & B3 & B4 & _ & _ & _ & B5 & B6).
  unfold sameFunctions. rewrite A1, A2, A3, A4, A5, A6, B1, B2, B3, B4, B5, B6. unfold coreOrder. rewrite <- K, <- O, <- G, <- C, <- S, <- R, <- L.
  repeat split; auto.
  - destruct (restrictable (a_kind a)); [|exact I]. destruct (a_domains a), (a_domains b); cbn in *; try tauto. split; auto. intros i. split; apply Permutation_in; auto using Permutation_sym.
  - destruct (restrictable (a_kind a)); [|reflexivity]. destruct (a_domains a), (a_domains b); cbn in *; tauto.
  - destruct (restrictable (a_kind a)); [|reflexivity]. destruct (a_domains a), (a_domains b); cbn in *; tauto.
Qed.

(** grid segments depend on the set of domains only *)
From Verif Require Import SegModel.
Lemma smem_ext x D D' : (forall i, In i D <-> In i D') -> smem x D = smem x D'.
Proof.
  intros E. apply eq_true_iff_eq. unfold smem. rewrite !existsb_exists. split; intros (y & I & H); exists y; split; auto; apply E; auto.
Qed.
Lemma fold_ext A B (f f' : A -> B -> A) l a : (forall a b, f a b = f' a b) -> fold_left f l a = fold_left f' l a.
Proof. intros E. revert a. induction l; cbn; intros; [auto|]. rewrite E. auto. Qed.
Lemma segment_ext g D D' : (forall i, In i D <-> In i D') -> openDomain g D = openDomain g D' /\ closedDomain g D = closedDomain g D'.
Proof.
  intros E. unfold openDomain, closedDomain. split.
  - rewrite (fold_ext _ _ (openStep D) (openStep D')); [reflexivity|]. intros [c [[x0 x1] x2]] e. unfold openStep. rewrite (smem_ext _ _ _ E). reflexivity.
  - rewrite (fold_ext _ _ (closedStep D) (closedStep D')); [reflexivity|]. intros [[x0 x1] x2] e. unfold closedStep. rewrite (smem_ext _ _ _ E). reflexivity.
Qed.
