(** Matrix algebra (nothing here models repository code): matrices are compared by sizes and entries in range. *)
From Coq Require Import List Arith Lia Bool.
From Verif Require Import Base AsmModel.
Set Implicit Arguments.

Section Alg.
  Variable K : star_ring.
  Add Ring Kring : (sr_ring K).
  Definition meq (a b : mat K) : Prop :=
    m_rows a = m_rows b /\ m_cols a = m_cols b /\
    forall i j, i < m_rows a -> j < m_cols a -> m_at a i j = m_at b i j.
  Definition mAdd (a b : mat K) : mat K := Mat (m_rows a) (m_cols a) (fun i j => add (m_at a i j) (m_at b i j)).
  Definition mMul (a b : mat K) : mat K :=
    Mat (m_rows a) (m_cols b) (fun i j => bsum (seq 0 (m_cols a)) (fun k => mul (m_at a i k) (m_at b k j))).
  Definition mScale (c : K) (a : mat K) : mat K := Mat (m_rows a) (m_cols a) (fun i j => mul c (m_at a i j)).
  Definition mOpp (a : mat K) : mat K := Mat (m_rows a) (m_cols a) (fun i j => opp (m_at a i j)).
  Definition mT (a : mat K) : mat K := Mat (m_cols a) (m_rows a) (fun i j => m_at a j i).
  Definition mH (a : mat K) : mat K := Mat (m_cols a) (m_rows a) (fun i j => conj (m_at a j i)).
  Definition mId (n : nat) : mat K := Mat n n (fun i j => if i =? j then one else zero).

  Lemma meq_refl a : meq a a. Proof. split; [|split]; auto. Qed.
  Lemma meq_sym a b : meq a b -> meq b a.
  Proof. intros (A & B & C). split; [|split]; auto. intros i j Hi Hj. symmetry. apply C; congruence. Qed.
  Lemma meq_trans a b c : meq a b -> meq b c -> meq a c.
  Proof. intros (A & B & C) (D & E & F). split; [congruence|]. split; [congruence|]. intros i j Hi Hj. rewrite C by auto. apply F; congruence. Qed.
  Lemma meq_add a a' b b' : m_rows a = m_rows b -> m_cols a = m_cols b -> meq a a' -> meq b b' -> meq (mAdd a b) (mAdd a' b').
  Proof.
    intros R C (A1 & A2 & A3) (B1 & B2 & B3). split; [|split]; auto. cbn. intros i j Hi Hj. rewrite A3, B3 by congruence. reflexivity.
  Qed.
  Lemma meq_mul a a' b b' : m_cols a = m_rows b -> meq a a' -> meq b b' -> meq (mMul a b) (mMul a' b').
  Proof.
    intros D (A1 & A2 & A3) (B1 & B2 & B3). split; [|split]; auto. cbn. intros i j Hi Hj. rewrite A2. apply bsum_ext.
    intros k Hk. apply in_seq in Hk. rewrite A3, B3 by lia. reflexivity.
  Qed.
  Lemma meq_scale c a a' : meq a a' -> meq (mScale c a) (mScale c a').
  Proof. intros (A1 & A2 & A3). split; [|split]; auto. cbn. intros. rewrite A3; auto. Qed.
  Lemma meq_T a a' : meq a a' -> meq (mT a) (mT a').
  Proof. intros (A1 & A2 & A3). split; [|split]; auto. cbn. intros. rewrite A3; auto. Qed.
  Lemma meq_H a a' : meq a a' -> meq (mH a) (mH a').
  Proof. intros (A1 & A2 & A3). split; [|split]; auto. cbn. intros. rewrite A3; auto. Qed.
  Lemma mMul_assoc a b c : meq (mMul (mMul a b) c) (mMul a (mMul b c)).
  Proof.
    split; [reflexivity|]. split; [reflexivity|]. intros i j _ _. cbn.
    transitivity (bsum (seq 0 (m_cols b)) (fun k => bsum (seq 0 (m_cols a)) (fun l => mul (mul (m_at a i l) (m_at b l k)) (m_at c k j)))).
    { apply bsum_ext. intros k _. symmetry. apply bsum_mul_r. }
    rewrite bsum_swap. apply bsum_ext. intros k _. rewrite <- bsum_mul_l. apply bsum_ext. intros. ring.
  Qed.
  Lemma mMul_id_r a : meq (mMul a (mId (m_cols a))) a.
  Proof.
    split; [reflexivity|]. split; [reflexivity|]. intros i j Hi Hj. cbn in *.
    etransitivity; [apply (@bsum_single _ nat Nat.eq_dec) with (a := j)|].
    - apply seq_NoDup.
    - apply in_seq. lia.
    - intros k _ Hk. cbn. replace (k =? j) with false by (symmetry; apply Nat.eqb_neq; auto). ring.
    - cbn. rewrite Nat.eqb_refl. ring.
  Qed.
  Lemma mMul_id_l a : meq (mMul (mId (m_rows a)) a) a.
  Proof.
    split; [reflexivity|]. split; [reflexivity|]. intros i j Hi Hj. cbn in *.
    etransitivity; [apply (@bsum_single _ nat Nat.eq_dec) with (a := i)|].
    - apply seq_NoDup.
    - apply in_seq. lia.
    - intros k _ Hk. cbn. replace (i =? k) with false by (symmetry; apply Nat.eqb_neq; auto). ring.
    - cbn. rewrite Nat.eqb_refl. ring.
  Qed.
  Lemma mMul_add_l a b c : m_cols a = m_cols b -> meq (mMul (mAdd a b) c) (mAdd (mMul a c) (mMul b c)).
  Proof.
    intros C. split; [reflexivity|]. split; [reflexivity|]. intros i j Hi Hj. cbn. rewrite <- C, <- bsum_add.
    apply bsum_ext. intros. ring.
  Qed.
  Lemma mMul_add_r a b c : meq (mMul a (mAdd b c)) (mAdd (mMul a b) (mMul a c)).
  Proof.
    split; [reflexivity|]. split; [reflexivity|]. intros i j Hi Hj. cbn. rewrite <- bsum_add.
    apply bsum_ext. intros. ring.
  Qed.
  Lemma mMul_scale_l c a b : meq (mMul (mScale c a) b) (mScale c (mMul a b)).
  Proof.
    split; [reflexivity|]. split; [reflexivity|]. intros i j Hi Hj. cbn. rewrite <- bsum_mul_l.
    apply bsum_ext. intros. ring.
  Qed.
  Lemma mMul_scale_r c a b : meq (mMul a (mScale c b)) (mScale c (mMul a b)).
  Proof.
    split; [reflexivity|]. split; [reflexivity|]. intros i j Hi Hj. cbn. rewrite <- bsum_mul_l.
    apply bsum_ext. intros. ring.
  Qed.
  Lemma mT_mul a b : m_cols a = m_rows b -> meq (mT (mMul a b)) (mMul (mT b) (mT a)).
  Proof.
    intros D. split; [reflexivity|]. split; [reflexivity|]. intros i j Hi Hj. cbn. rewrite D. apply bsum_ext. intros. ring.
  Qed.
  Lemma mH_mul a b : m_cols a = m_rows b -> meq (mH (mMul a b)) (mMul (mH b) (mH a)).
  Proof.
    intros D. split; [reflexivity|]. split; [reflexivity|]. intros i j Hi Hj. cbn. rewrite D, bsum_conj. apply bsum_ext.
    intros. rewrite conj_mul. ring.
  Qed.
  Lemma mT_add a b : m_rows a = m_rows b -> m_cols a = m_cols b -> meq (mT (mAdd a b)) (mAdd (mT a) (mT b)).
  Proof. intros R C. split; [|split]; cbn; auto. Qed.
  Lemma mH_add a b : meq (mH (mAdd a b)) (mAdd (mH a) (mH b)).
  Proof. split; [|split]; cbn; auto. intros. apply conj_add. Qed.
  Lemma mT_T a : meq (mT (mT a)) a. Proof. split; [|split]; auto. Qed.
  Lemma mH_H a : meq (mH (mH a)) a. Proof. split; [|split]; auto. cbn. intros. apply conj_invol. Qed.
  Lemma mScale_opp a : meq (mScale (opp one) a) (mOpp a).
  Proof. split; [|split]; auto. cbn. intros. ring. Qed.
End Alg.
