(** C52, C53 and C88: the algebra of discrete operators in Python *)
From Coq Require Import List Arith Bool ZArith Lia.
Import ListNotations.
From Verif Require Import Base ArrayModel AsmModel QuadModel MatAlg PyOpModel PyOpSpec PyOpProofs.
Set Implicit Arguments.

Lemma every_weaken K (P Q : expr K -> Prop) e : (forall x, P x -> Q x) -> every P e -> every Q e.
Proof. intros H. induction e; cbn; intuition. Qed.
Lemma transposable_adjointable K (e : expr K) : transposable e -> adjointable e.
Proof. apply every_weaken. intros x. destruct x; intuition. Qed.

(** C52. *)
Theorem C52_op_algebra K (pinv : mat K -> mat K) : goodInverse pinv ->
  forall e m, transposable e -> value pinv e = Some m ->
    exists o, build e = Ok o /\ realises pinv o m.
Proof.
  intros G e m T V. destruct (@build_ok K pinv G e (transposable_adjointable _ T) m V) as (o & B & W & E & _).
  exists o. split; auto. apply wf_realises; auto.
Qed.
(** the transposed of a zero operator is not implemented *)
Theorem C52_zero_transpose K rows cols : transpose (@Zero K rows cols) = Throws.
Proof. reflexivity. Qed.

(** C53. *)
Theorem C53_adjoint_partial K (pinv : mat K -> mat K) : goodInverse pinv ->
  forall e m, adjointable e -> value pinv e = Some m ->
    exists o, build e = Ok o /\ realises pinv o m /\
      (noSparse e -> realScalars e -> realDense e ->
       forall x, m_rows x = m_rows m -> m_cols x = 1 -> exists y, rmatvec pinv o x = Ok y /\ meq y (mMul (mH m) x)).
Proof.
  intros G e m A V. destruct (@build_ok K pinv G e A m V) as (o & B & W & E & (_ & Q1 & Q2 & Q3)).
  exists o. split; auto. split; [apply wf_realises; auto|]. intros NS RS RD x R C.
  destruct (den_shape G _ W) as (D1 & D2). pose proof E as (E1 & E2 & _).
  destruct (@rraw_ok K pinv G o W (Q2 NS) (Q1 RS) (Q3 RS RD) x) as (y & Ey & Hy); [congruence|auto|].
  pose proof Hy as (Y1 & Y2 & _). cbn in Y1, Y2. unfold rmatvec. rewrite Ey. rewrite checkVec_ok; cbn; try congruence.
  eexists. split; [reflexivity|]. eapply meq_trans; [apply meq_fix1; [| |exact Hy]; congruence|].
  apply meq_mul; [cbn; congruence|apply meq_H; auto|apply meq_refl].
Qed.
Section Gauss.
  Let i1 : GIsr := (0, 1)%Z.
  Let c1 : mat GIsr := @Mat GIsr 1 1 (fun _ _ => (1, 0)%Z).
  Let ci : mat GIsr := @Mat GIsr 1 1 (fun _ _ => i1).
  (** (i A)* is built as i A*, and rmatvec disagrees with the adjoint *)
  Theorem C53_adjoint_refuted :
    (** a complex factor of an operator is not conjugated, neither by adjoint() nor by rmatvec *)
    (exists (e : expr GIsr) m o a, value (fun x => x) e = Some m /\ build e = Ok o /\ adjoint o = Ok a /\
       ~ (exists y, asMatrix (fun x => x) a = Ok y /\ meq y (mH m)) /\
       ~ (exists y, rmatvec (fun x => x) o c1 = Ok y /\ meq y (mMul (mH m) c1))) /\
    (** rmatvec of a dense operator applies the transposed matrix *)
    (exists (a : mat GIsr), ~ (exists y, rmatvec (fun x => x) (Dense a) c1 = Ok y /\ meq y (mMul (mH a) c1))) /\
    (** rmatvec of a sparse operator raises an exception *)
    (forall K pinv (a x : mat K), rmatvec pinv (Sparse a) x = Throws).
  Proof.
    split; [|split].
    - exists (EScale i1 (ENonlocal c1)), (mScale i1 c1), (Scaled (Nonlocal c1) i1), (Scaled (Nonlocal (mH c1)) i1).
      split; [reflexivity|]. split; [reflexivity|]. split; [reflexivity|]. split.
      + intros (y & E & (_ & _ & H)). injection E as <-. specialize (H 0 0). vm_compute in H. specialize (H (le_n 1) (le_n 1)). discriminate.
      + intros (y & E & (_ & _ & H)). injection E as <-. specialize (H 0 0). vm_compute in H. specialize (H (le_n 1) (le_n 1)). discriminate.
    - exists ci. intros (y & E & (_ & _ & H)). injection E as <-. specialize (H 0 0). vm_compute in H. specialize (H (le_n 1) (le_n 1)). discriminate.
    - intros K pinv a x. unfold rmatvec, checkVec. cbn. destruct (_ && _); reflexivity.
  Qed.
End Gauss.

(** C88: products with operands of the wrong size *)
Theorem C88_mismatch_partial K (pinv : mat K -> mat K) : goodInverse pinv ->
  (** sums of operators with different shapes, unless both are dense *)
  (forall a b : dop K, shape a <> shape b -> (forall x y, ~ (a = Dense x /\ b = Dense y)) -> pyAdd a b = Throws) /\
  (** ... or if no dimension is one *)
  (forall x y : mat K, (m_rows x <> m_rows y /\ m_rows x <> 1 /\ m_rows y <> 1 \/ m_cols x <> m_cols y /\ m_cols x <> 1 /\ m_cols y <> 1) ->
     pyAdd (Dense x) (Dense y) = Throws) /\
  (** products of operators with different inner dimensions *)
  (forall a b : dop K, snd (shape a) <> fst (shape b) -> pyMul a b = Throws) /\
  (** matvec, matmat and rmatvec with a wrong number of rows *)
  (forall (a : dop K) x, m_rows x <> snd (shape a) -> matvec pinv a x = Throws /\ matmat pinv a x = Throws) /\
  (forall (a : dop K) x, m_rows x <> fst (shape a) -> rmatvec pinv a x = Throws) /\
  (** operator * array, except for zero operators *)
  (forall (a : dop K) x, m_rows x <> snd (shape a) -> (forall r c, a <> Zero r c) -> 0 < m_cols x ->
     dot pinv a x = Throws).
Proof.
  intros GI.
  assert (EQB : forall m n, m <> n -> (m =? n) = false) by (intros; apply Nat.eqb_neq; auto).
  assert (NT : forall m n, m <> n -> m <> 1 -> n <> 1 -> bcast m n = None).
  { intros m n A B C. unfold bcast. rewrite !EQB; auto. }
  assert (PAIR : forall p q : nat * nat, p <> q -> (fst p =? fst q) && (snd p =? snd q) = false).
  { intros (p1, p2) (q1, q2) H. cbn. apply Bool.andb_false_iff. destruct (Nat.eq_dec p1 q1) as [->|]; [right|left]; apply EQB; congruence. }
  assert (CV : forall s (x : mat K) y, m_rows x <> snd s -> checkVec s x y = Throws).
  { intros s x y H. unfold checkVec. rewrite EQB; auto. }
  assert (CM : forall s (x : mat K) y, m_rows x <> snd s -> checkMat s x y = Throws).
  { intros s x y H. unfold checkMat. rewrite EQB; auto. }
  assert (BY : forall s f (x : mat K), m_rows x <> snd s -> 0 < m_cols x -> byColumns s f x = Throws).
  { intros s f x H N. unfold byColumns. destruct (m_cols x) as [|n]; [lia|]. cbn [seq mapRes]. rewrite CV; auto. }
  split; [|split; [|split; [|split; [|split]]]].
  - intros a b H D. pose proof (PAIR _ _ H) as P. destruct a, b; unfold pyAdd; try (rewrite P; reflexivity).
    + exfalso. apply (D a a0). auto.
    + unfold spAdd. cbn in P. rewrite P. reflexivity.
  - intros x y H. unfold pyAdd, npAdd. destruct H as [(A & B & C)|(A & B & C)]; pose proof (NT _ _ A B C) as E; rewrite E; [reflexivity|].
    destruct (bcast (m_rows x) _); reflexivity.
  - intros a b H. pose proof (EQB _ _ H) as P. destruct a, b; unfold pyMul; try (rewrite P; reflexivity); unfold npDot; cbn in P; rewrite P; reflexivity.
  - intros a x H. split; [apply CV|apply CM]; auto.
  - intros a x H. apply CV. exact H.
  - intros a x H Z N. unfold dot. destruct a; cbn [raw shape snd] in *.
    1-3: unfold npDot; rewrite EQB; auto.
    + destruct (negb _); [apply BY; auto|]. unfold npDot. destruct (GI a) as (_ & -> & _). rewrite EQB; auto.
    + exfalso. eapply Z. reflexivity.
    + destruct (negb _); [apply BY; auto|]. unfold npDot at 1. cbn. rewrite EQB; auto.
    + destruct (negb _); [rewrite CM|rewrite CV]; auto.
    + destruct (negb _); [rewrite CM|rewrite CV]; auto.
    + destruct (negb _); [rewrite CM|rewrite CV]; auto.
Qed.
Theorem C88_mismatch_refuted :
  (** NumPy broadcasting: a 2x3 and a 1x3 dense operator can be added *)
  (exists x y o, m_rows x <> m_rows y /\ pyAdd (Dense (x : mat Zsr)) (Dense y) = Ok o) /\
  (** a zero operator can be applied to vectors of every size *)
  (forall (pinv : mat Zsr -> mat Zsr) r c n, exists y, dot pinv (Zero r c) (zeroMat n 1) = Ok y).
Proof.
  split.
  - exists (zeroMat 2 3), (zeroMat 1 3). eexists. split; [cbn; discriminate|]. reflexivity.
  - intros. eexists. reflexivity.
Qed.

(** Non-vacuity *)
Example goodInverse_ok K : goodInverse (@mT K).
Proof.
  intros a. split; [reflexivity|]. split; [reflexivity|]. split; [apply meq_refl|]. split; [reflexivity|]. split; [reflexivity|]. cbn. auto.
Qed.
Definition exA : @mat Zsr := @Mat Zsr 2 3 (fun i j => Z.of_nat (3 * i + j)).
Definition exF : expr Zsr := ESub (EMul (@EScale Zsr 2%Z (EDense exA)) (ETrans (ENeg (ESparse exA)))) (@ERankOne Zsr [1; 2]%Z [5; 7]%Z).
Example exF_case : transposable exF /\ exists m, value (@mT Zsr) exF = Some m /\ m_rows m = 2 /\ m_at m 1 1 = (-114)%Z.
Proof.
  split; [cbn; intuition|]. eexists. split; [vm_compute; reflexivity|]. split; vm_compute; reflexivity.
Qed.
Definition exG : expr GIsr := EAdj (EMul (@EScale GIsr (2, 0)%Z (ENonlocal (@Mat GIsr 2 1 (fun i j => (Z.of_nat i, 3%Z))))) (@ERankOne GIsr [(1, 1)%Z] [(0, 2)%Z; (1, 0)%Z])).
Example exG_case : adjointable exG /\ noSparse exG /\ realScalars exG /\ realDense exG /\
  exists m, value (@mT GIsr) exG = Some m /\ m_rows m = 2 /\ m_at m 0 1 = (-16, 8)%Z.
Proof.
  split; [cbn; intuition|]. split; [cbn; intuition|]. split; [cbn; intuition|]. split; [cbn; intuition|].
  eexists. split; [vm_compute; reflexivity|]. split; vm_compute; reflexivity.
Qed.
Print Assumptions C52_op_algebra.
Print Assumptions C53_adjoint_partial.
Print Assumptions C53_adjoint_refuted.
Print Assumptions C88_mismatch_partial.
Print Assumptions C88_mismatch_refuted.
