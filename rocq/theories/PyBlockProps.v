(** C54 and C89: blocked discrete operators *)
From Coq Require Import List Arith Bool ZArith Lia.
Import ListNotations.
From Verif Require Import Base ArrayModel AsmModel QuadModel MatAlg PyOpModel PyOpSpec PyOpProofs PyBlockModel PyBlockSpec PyBlockProofs.
Set Implicit Arguments.

(** C54. *)
Theorem C54_blocked_algebra K (pinv : mat K -> mat K) : goodInverse pinv ->
  forall e R C m, hasValue pinv e R C m -> exists o, bbuild e = Ok o /\ brealises pinv o R C m.
Proof. intros G e R C m H. destruct (bbuild_ok G H) as (o & E & I). exists o. split; auto. apply binv_realises; auto. Qed.
(** every family of blocks with fitting sizes has a block matrix *)
Theorem C54_block_matrix_exists K R C (M : nat -> nat -> mat K) :
  (forall i j, i < length R -> j < length C -> m_rows (M i j) = nth i R 0 /\ m_cols (M i j) = nth j C 0) -> exists m, isBlockMatrix R C M m.
Proof. apply block_matrix_exists. Qed.
(** A constructor call that succeeds was given a rectangular array in which all operators of a row have the same
    number of rows, all operators of a column the same number of columns, and no row or column is empty. *)
Theorem C54_blocked_rejects K (ops : list (list (option (dop K)))) b : mkBlocked ops = Ok b ->
  ops <> [] /\ length ops = length (bl_rows b) /\ (forall r, In r ops -> length r = length (bl_cols b)) /\
  (forall i j r o, nth_error ops i = Some r -> nth_error r j = Some (Some o) ->
     shape o = (nth i (bl_rows b) 0, nth j (bl_cols b) 0)) /\
  (forall i, i < length ops -> exists j r o, nth_error ops i = Some r /\ nth_error r j = Some (Some o)) /\
  (forall j, j < length (bl_cols b) -> exists i r o, nth_error ops i = Some r /\ nth_error r j = Some (Some o)).
Proof.
  intros H. destruct (mkBlocked_inv _ H) as (A & B & C & D & (E1 & E2) & _). split; auto. split; auto. split; auto. split; [|split; auto].
  - intros i j r o H1 H2. destruct (D i j r o H1 H2) as (X & Y). rewrite (nth_error_nth _ _ _ X), (nth_error_nth _ _ _ Y). apply surjective_pairing.
  - intros i Hi. apply E1. congruence.
Qed.

(** C89. *)
Theorem C89_block_mismatch_partial K (pinv : mat K -> mat K) :
  (** sums and products of operators with different block dimensions are rejected, unless one of the lists
      of dimensions has one entry and the other one has more *)
  (forall a b : bop K, rowDims a <> rowDims b -> (length (rowDims a) = length (rowDims b) \/ length (rowDims a) <> 1 /\ length (rowDims b) <> 1) ->
     bAdd a b = Throws) /\
  (forall a b : bop K, colDims a <> colDims b -> (length (colDims a) = length (colDims b) \/ length (colDims a) <> 1 /\ length (colDims b) <> 1) ->
     bAdd a b = Throws) /\
  (forall a b : bop K, colDims a <> rowDims b -> (length (colDims a) = length (rowDims b) \/ length (colDims a) <> 1 /\ length (rowDims b) <> 1) ->
     bMul a b = Throws) /\
  (** so is the product with a 1-d array of the wrong length, and matvec *)
  (forall b x, m_rows x <> list_sum (bl_cols b) -> bapply pinv true (BLeaf b) x = Throws) /\
  (forall oned (o : bop K) x, m_rows x <> snd (bshape o) -> bmatvec pinv oned o x = Throws).
Proof.
  assert (DIFF : forall l m, l <> m -> (length l = length m \/ length l <> 1 /\ length m <> 1) -> npDiffer l m = true).
  { intros l m N H. unfold npDiffer. destruct (Nat.eqb_spec (length l) (length m)) as [E|E].
    - apply Bool.negb_true_iff. apply Bool.not_true_iff_false. intros F. apply N. clear N H. revert m E F. induction l as [|a l IH]; intros [|b m] E F; try discriminate; auto.
      cbn in F. apply Bool.andb_true_iff in F. destruct F as (F1 & F2). apply Nat.eqb_eq in F1. f_equal; auto.
    - destruct H as [H|(H1 & H2)]; [contradiction|]. apply Nat.eqb_neq in H1, H2. rewrite H1, H2. reflexivity. }
  assert (CV : forall s (x : mat K) y, m_rows x <> snd s -> checkVec s x y = Throws).
  { intros s x y H. unfold checkVec. apply Nat.eqb_neq in H. rewrite H. auto. }
  split; [|split; [|split; [|split]]].
  - intros a b N H. unfold bAdd. rewrite DIFF; auto.
  - intros a b N H. unfold bAdd. rewrite (DIFF (colDims a)) by auto. rewrite Bool.orb_true_r. reflexivity.
  - intros a b N H. unfold bMul. rewrite DIFF; auto.
  - intros b x H. cbn. apply CV. exact H.
  - intros oned o x H. apply CV. exact H.
Qed.
Definition one33 : dop Zsr := Dense (mId Zsr 3).
Theorem C89_block_mismatch_refuted :
  (** a 1x1 and a 1x2 block operator can be added *)
  (exists a b s, mkBlocked [[Some one33]] = Ok a /\ mkBlocked [[Some one33; Some one33]] = Ok b /\
     colDims (BLeaf a) <> colDims (BLeaf b) /\ bAdd (BLeaf a) (BLeaf b) = Ok s) /\
  (** superfluous rows of a 2-d array are ignored *)
  (exists b x y, mkBlocked [[Some one33]] = Ok b /\ m_rows x <> snd (bshape (BLeaf b)) /\ bapply (fun m => m) false (BLeaf b) x = Ok y).
Proof.
  split.
  - do 3 eexists. split; [vm_compute; reflexivity|]. split; [vm_compute; reflexivity|]. split; [cbn; discriminate|]. vm_compute. reflexivity.
  - eexists. exists (zeroMat 5 1). eexists. split; [vm_compute; reflexivity|]. split; [cbn; discriminate|]. vm_compute. reflexivity.
Qed.

(** Non-vacuity: a 2x2 block matrix with a missing block, squared *)
Definition blkA : expr Zsr := EDense (@Mat Zsr 1 1 (fun _ _ => 2%Z)).
Definition blkB : expr Zsr := ENonlocal (@Mat Zsr 1 2 (fun _ j => Z.of_nat (S j))).
Definition blkC : expr Zsr := ESparse (mId Zsr 2).
Definition blks : list (list (option (expr Zsr))) := [[Some blkA; Some blkB]; [None; Some blkC]].
Definition blkM (i j : nat) : @mat Zsr :=
  match i, j with 0, 0 => @Mat Zsr 1 1 (fun _ _ => 2%Z) | 0, _ => @Mat Zsr 1 2 (fun _ j => Z.of_nat (S j)) | _, 0 => zeroMat 2 1 | _, _ => mId Zsr 2 end.
Example C54_case : exists m, hasValue (@mT Zsr) (XMul (XBlocks blks) (XBlocks blks)) [1; 2] [1; 2] m.
Proof.
  destruct (@C54_block_matrix_exists Zsr [1; 2] [1; 2] blkM) as (m & Hm).
  { intros [|[|i]] [|[|j]] Hi Hj; cbn in *; try lia; auto. }
  exists (mMul m m). assert (H : hasValue (@mT Zsr) (XBlocks blks) [1; 2] [1; 2] m).
  { apply VBlocks with (M := blkM); auto.
    - intros r [<-|[<-|[]]]; reflexivity.
    - intros [|[|i]] Hi; cbn in Hi; try lia; [exists 0|exists 1]; eexists; reflexivity.
    - intros [|[|j]] Hj; cbn in Hj; try lia; [exists 0|exists 0]; eexists; reflexivity.
    - intros [|[|i]] [|[|j]] Hi Hj; cbn in *; try lia; auto.
    - intros [|[|[|i]]] [|[|[|j]]] e H; cbn in H; try discriminate; injection H as <-; cbn; auto.
    - discriminate. }
  eapply VMul; eauto.
Qed.
Print Assumptions C54_blocked_algebra.
Print Assumptions C54_block_matrix_exists.
Print Assumptions C54_blocked_rejects.
Print Assumptions C89_block_mismatch_partial.
Print Assumptions C89_block_mismatch_refuted.
