(** C40, C41, C75: discrete operators *)
From Verif Require Import Base HMatTreeModel HMatTreeSpec HMatApplyModel HMatApplySpec HMatApplyProps AsmModel OperModel OperSpec OperProofs.
Set Implicit Arguments.

(** C40, real value types ([conj] is the identity).  [mt]: the mode given to the constructor. *)
Theorem C40_sparse_real (K : star_ring) (isz : K -> bool) : (forall x, isz x = true <-> x = zero) -> (forall x : K, conj x = x) ->
  forall (A : AsmModel.mat K) mt, mt <> CONJUGATE ->
  blasContract (sparseImpl isz A mt) (opM mt A) /\
  sameMat (sparseAsMatrix A mt) (opM mt A) /\
  sparseRows A mt = m_rows (opM mt A) /\ sparseCols A mt = m_cols (opM mt A).
Proof.
  intros Z CT A mt N. split; [now apply sparse_contract|]. split; [now apply sparse_asMatrix|]. now apply sparse_sizes.
Qed.
Print Assumptions C40_sparse_real.

(** C40, complex value types over real ones: the stored matrix is real *)
Theorem C40_sparse_complex (K : star_ring) (isz : K -> bool) : (forall x, isz x = true <-> x = zero) -> (one : K) <> zero ->
  forall (A : AsmModel.mat K) mt, mt <> CONJUGATE ->
  blasContract (sparseImplC isz A mt) (opM mt (castM A)) /\
  sameMat (sparseAsMatrix (castM A) mt) (opM mt (castM A)) /\
  sparseRows A mt = m_rows (opM mt (castM A)) /\ sparseCols A mt = m_cols (opM mt (castM A)).
Proof.
  intros Z NT A mt N. split; [now apply sparseC_contract|]. split; [|destruct (sparse_sizes A N) as (B1 & B2); destruct mt; auto].
  unfold sparseAsMatrix. rewrite realTrans_ok by auto.
  assert (ZZ : opp zero = zero :> K).
  { assert (E : add (opp zero) zero = zero :> K) by (rewrite (Radd_comm (sr_ring K)), (Ropp_def (sr_ring K)); reflexivity).
    rewrite (Radd_comm (sr_ring K)), (Radd_0_l (sr_ring K)) in E. exact E. }
  destruct mt; try congruence; repeat split; intros; cbn; unfold cx_conj; cbn; rewrite ?ZZ; reflexivity.
Qed.
Print Assumptions C40_sparse_complex.

(** C75: an operator built with CONJUGATE.  Exact behaviour: it is the transpose. *)
Theorem C75_conjugate_mode_partial (K : star_ring) (isz : K -> bool) : (forall x, isz x = true <-> x = zero) -> (forall x : K, conj x = x) ->
  forall (A : AsmModel.mat K),
  blasContract (sparseImpl isz A CONJUGATE) (opM TRANSPOSE A) /\ sparseAsMatrix A CONJUGATE = opM TRANSPOSE A.
Proof.
  intros Z CT A. split; [|reflexivity]. change (sparseImpl isz A CONJUGATE) with (sparseImpl isz A TRANSPOSE). apply sparse_contract; auto; discriminate.
Qed.
Print Assumptions C75_conjugate_mode_partial.
Definition ex_A : AsmModel.mat Zsr := Mat 2 2 (fun i j => Z.of_nat (1 + 2 * i + j) : Zsr).
Definition zisz (x : Zsr) : bool := (x =? 0)%Z.
Theorem C75_conjugate_mode_refuted : exists A : AsmModel.mat Zsr,
  ~ blasContract (sparseImpl zisz A CONJUGATE) (opM CONJUGATE A) /\ ~ sameMat (sparseAsMatrix A CONJUGATE) (opM CONJUGATE A).
Proof.
  exists ex_A. split.
  - intro H. destruct (H NO_TRANSPOSE [1; 0]%Z [Some 0; Some 0]%Z 1%Z 0%Z eq_refl eq_refl) as (r & E & L & P).
    cbn in E. injection E as <-. destruct (P 1 ltac:(cbn; lia)) as (Q & _). specialize (Q eq_refl). cbn in Q. discriminate.
  - intros (_ & _ & H). specialize (H 0 1 ltac:(cbn; lia) ltac:(cbn; lia)). cbn in H. discriminate.
Qed.
Print Assumptions C75_conjugate_mode_refuted.

(** C41: the dense operator conforms; *)
Theorem C41_dense_apply (K : star_ring) (isz : K -> bool) : (forall x, isz x = true <-> x = zero) ->
  forall A : AsmModel.mat K, blasContract (denseImpl isz A) A.
Proof. intros Z A. now apply dense_contract. Qed.
Print Assumptions C41_dense_apply.
(** the default asMatrix returns A for every operator that conforms, whatever is in the
    uninitialised column buffers; *)
Theorem C41_default_asMatrix (K : star_ring) (impl : builtIn K) (A : AsmModel.mat K) : blasContract impl A ->
  forall junk, (forall i, length (junk i) = m_rows A) ->
  exists M, asMatrix impl (m_cols A) junk = Some M /\ length M = m_cols A /\
    forall j, j < m_cols A -> exists col, nth_error M j = Some col /\ length col = m_rows A /\
      forall i, i < m_rows A -> nth_error col i = Some (Some (m_at A i j)).
Proof. apply asMatrix_ok. Qed.
Print Assumptions C41_default_asMatrix.
(** apply on several columns: works column by column, and rejects wrong sizes *)
Theorem C41_apply_columns (K : star_ring) (impl : builtIn K) (A : AsmModel.mat K) : blasContract impl A ->
  forall t xrows xs yrows ys alpha beta, (forall x, In x xs -> length x = xrows) -> (forall y, In y ys -> length y = yrows) ->
  if (xrows =? opCols t A) && (yrows =? opRows t A) && (length xs =? length ys)
  then exists rs, applyMatrix impl (m_rows A) (m_cols A) t xrows xs yrows ys alpha beta = Some rs /\ length rs = length xs /\
    forall j x y, nth_error xs j = Some x -> nth_error ys j = Some y -> exists r, nth_error rs j = Some r /\ axpby t A x y alpha beta r
  else applyMatrix impl (m_rows A) (m_cols A) t xrows xs yrows ys alpha beta = None.
Proof.
  intros H t xrows xs yrows ys alpha beta X Y. unfold applyMatrix.
  assert (EC : (if isT_ t then m_rows A else m_cols A) = opCols t A) by (destruct t; reflexivity).
  assert (ER : (if isT_ t then m_cols A else m_rows A) = opRows t A) by (destruct t; reflexivity).
  rewrite EC, ER. destruct (xrows =? opCols t A) eqn:E1; [|reflexivity]. destruct (yrows =? opRows t A) eqn:E2; [|reflexivity].
  destruct (length xs =? length ys) eqn:E3; [|reflexivity]. cbn [negb andb].
  apply Nat.eqb_eq in E1, E2, E3. subst. apply applyCols_ok; auto.
Qed.
Print Assumptions C41_apply_columns.
(** the variant that allocates its result: op(A) X for any uninitialised content *)
Theorem C41_apply_fresh (K : star_ring) (impl : builtIn K) (A : AsmModel.mat K) : blasContract impl A ->
  forall t xs junk, (forall x, In x xs -> length x = opCols t A) -> length junk = length xs -> (forall y, In y junk -> length y = opRows t A) ->
  exists rs, applyFresh impl (m_rows A) (m_cols A) t (opCols t A) xs junk = Some rs /\ length rs = length xs /\
    forall j x, nth_error xs j = Some x -> exists r, nth_error rs j = Some r /\ length r = opRows t A /\
      forall i, i < opRows t A -> nth_error r i = Some (Some (bsum (seq 0 (opCols t A)) (fun k => mul (opAt t A i k) (nth k x zero)))).
Proof.
  intros H t xs junk X L J. unfold applyFresh.
  pose proof (@C41_apply_columns K impl A H t (opCols t A) xs (if isT_ t then m_cols A else m_rows A) junk one zero X) as P.
  assert (ER : (if isT_ t then m_cols A else m_rows A) = opRows t A) by (destruct t; reflexivity). rewrite ER in P |- *.
  specialize (P J). rewrite L, !Nat.eqb_refl in P. cbn [andb] in P. destruct P as (rs & E & Lr & Q). exists rs. split; [exact E|]. split; [exact Lr|].
  intros j x Ex. destruct (nth_error junk j) as [y|] eqn:Ey.
  - destruct (Q j x y Ex Ey) as (r & E1 & E2 & E3). exists r. split; [exact E1|]. split; [exact E2|]. intros i Hi.
    destruct (E3 i Hi) as (E4 & _). rewrite E4 by reflexivity. rewrite (Rmul_1_l (sr_ring K)). reflexivity.
  - apply nth_error_None in Ey. assert (j < length xs) by (apply nth_error_Some; congruence). lia.
Qed.
Print Assumptions C41_apply_fresh.

(** C41: the H-matrix operator conforms as well, for every H-matrix built by the library
    (hypotheses of C06), every schedule of its row updates and every uninitialised storage. *)
Theorem C41_hmat_apply :
  forall (G : Type) (adm : cdata G -> cdata G -> bool) (mx : Z)
    (geomR geomC : list nat -> G) (sortR sortC : G -> list nat -> list nat),
  (forall g l, Permutation (sortR g l) l) -> (forall g l, Permutation (sortC g l) l) ->
  forall (n m : nat) (mbsR mbsC : Z) tr tc pr pc l,
  clusterTree geomR sortR n mbsR = Some (tr, pr) ->
  clusterTree geomC sortC m mbsC = Some (tc, pc) ->
  leafNodes (blockClusterTree adm mx tr tc) = Some l ->
  forall (K : star_ring) (isz : K -> bool), (forall x, isz x = true <-> x = zero) ->
  forall (blk : nat -> hdata K),
  (forall id s, nth_error l id = Some s ->
     hd_shape (blk id) (size_of (brow (sdata s))) (size_of (bcol (sdata s)))) ->
  forall M, represents (map leaf_of l) blk pr pc n m M ->
  forall (sched : tmode -> list (nat * nat)) junk bad,
  (forall t, Permutation (sched t) (tasks (map leaf_of l) t (seq 0 (length l)))) ->
  blasContract (hmatImpl (fun t X Y alpha beta =>
      apply_local isz (map leaf_of l) pr pc n m 0 (hm_initialize blk 0 1 (length l) (hm_new K)) (sched t) junk X Y t alpha beta) bad)
    (Mat n m M).
Proof.
  intros G adm mx geomR geomC sortR sortC SR SC n m mbsR mbsC tr tc pr pc l HR HC HL K isz Z blk SH M RM sched junk bad PS t x y alpha beta Lx Ly.
  unfold hmatImpl.
  match goal with |- context [apply_local _ _ _ _ _ _ _ _ _ _ ?X ?Y _ _ _] =>
    destruct (@C06_matvec_is_dense_product G adm mx geomR geomC sortR sortC SR SC n m mbsR mbsC tr tc pr pc l HR HC HL K isz Z blk SH M RM (hmatMode t) (sched (hmatMode t)) junk X Y alpha beta (PS _)) as (r & -> & Q) end.
  eexists. split; [reflexivity|].
  assert (ER : (if isT (hmatMode t) then m else n) = opRows t (Mat n m M)) by (destruct t; reflexivity).
  assert (EC : (if isT (hmatMode t) then n else m) = opCols t (Mat n m M)) by (destruct t; reflexivity).
  rewrite ER, EC in Q. split; [now rewrite map_length, seq_length|]. intros i Hi s.
  rewrite Ly, nth_error_map_seq by exact Hi.
  assert (RV : r i 0 = add (mul alpha s) (mul beta (match nth i y None with Some v => v | None => bad i end))).
  { rewrite Q by exact Hi. f_equal. f_equal. unfold s. apply bsum_ext. intros k _. destruct t; reflexivity. }
  split.
  - intros ->. do 2 f_equal. rewrite RV. assert (X : forall v, mul zero v = zero :> K).
    { intro v. apply (ARmul_0_l (Rth_ARth (Eqsth K) (Eq_ext _ _ _) (sr_ring K))). }
    rewrite X. rewrite (Radd_comm (sr_ring K)). apply (Radd_0_l (sr_ring K)).
  - intros v Ev. do 2 f_equal. rewrite RV. rewrite (nth_error_nth _ _ _ Ev). reflexivity.
Qed.
Print Assumptions C41_hmat_apply.

(** instances *)
Example C40_instance :
  sparseImpl zisz (Mat 2 3 (fun i j => Z.of_nat (3 * i + j) : Zsr)) TRANSPOSE NO_TRANSPOSE [1; 2]%Z [None; None; Some 7]%Z 2%Z 0%Z
  = Some [Some 12; Some 18; Some 24]%Z.
Proof. vm_compute. reflexivity. Qed.
Example C40_complex_instance :
  sparseImplC (K := Zsr) zisz (Mat 2 2 (fun i j => Z.of_nat (2 * i + j) : Zsr)) NO_TRANSPOSE CONJUGATE_TRANSPOSE
    [(1, 2); (0, 1)]%Z [Some (1, 1); Some (0, 1)]%Z (2, 1)%Z (0, 1)%Z = Some [Some (-3, 5); Some (-4, 11)]%Z.
Proof. vm_compute. reflexivity. Qed.
Example C41_instance :
  asMatrix (denseImpl (K := GIsr) (fun z => (fst z =? 0)%Z && (snd z =? 0)%Z) (Mat 2 3 (fun i j => (Z.of_nat i, Z.of_nat j) : GIsr))) 3 (fun _ => [None; None])
  = Some [[Some (0, 0); Some (1, 0)]; [Some (0, 1); Some (1, 1)]; [Some (0, 2); Some (1, 2)]]%Z.
Proof. vm_compute. reflexivity. Qed.
