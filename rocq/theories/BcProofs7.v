From Coq Require Import Reals Lra Sorted.
From Verif Require Import Base ComplexR SegModel SegSpec SegProofs AsmModel SpaceModel SpaceSpec SpaceProofs SpaceP1Proofs SpaceRwgProofs PolySpec PolyProofs6 VecModel VecSpec VecProofs3 VecProofs4
  BaryModel BarySpec BaryProofs BaryProofs2 BaryProofs3 BaryProofs4 BcModel BcSpec BcProofs BcProofs2 BcProofs3 BcProofs4 BcProofs5 BcProofs6.
Set Implicit Arguments.
Unset Strict Implicit.
Local Open Scope Z_scope.

(** ---- contribution of a list of entries to face f, side t ---- *)
Definition rsum (l : list R) : R := fold_right Rplus 0%R l.
Definition phi (E : list entry) (f : Z) (t : nat) : R := rsum (map (fun x => en_w x * kOf (en_col x) t)%R (row_ E f)).
Lemma rsum_app a b : rsum (a ++ b) = (rsum a + rsum b)%R.
Proof. unfold rsum. induction a as [|x a IH]; cbn; [lra|]. rewrite IH. lra. Qed.
Lemma phi_app E E' f t : phi (E ++ E') f t = (phi E f t + phi E' f t)%R.
Proof. unfold phi, row_. now rewrite filter_app, map_app, rsum_app. Qed.
Lemma phi_none E f t : ~ In f (map en_face E) -> phi E f t = 0%R.
Proof.
  intro N. unfold phi. replace (row_ E f) with (@nil entry); [reflexivity|]. symmetry. unfold row_. induction E as [|x E IH]; [reflexivity|]. cbn [filter]. unfold onFace at 1. cbn [map In] in N.
  destruct (Z.eqb_spec (en_face x) f); [tauto|]. apply IH. tauto.
Qed.
Lemma phi_at : forall E f j x t, NoDup (map en_face E) -> nth_error E j = Some x -> en_face x = f -> phi E f t = (en_w x * kOf (en_col x) t)%R.
Proof.
  induction E as [|y E IH]; intros f j x t N H F; [destruct j; discriminate|]. cbn [map] in N. inversion N as [|? ? NI N']. subst.
  change (y :: E) with ([y] ++ E). rewrite phi_app. destruct j as [|j].
  - cbn in H. injection H as ->. rewrite (@phi_none E) by exact NI. unfold phi, row_, onFace. cbn [filter]. rewrite Z.eqb_refl. cbn. lra.
  - cbn [nth_error] in H. rewrite (IH _ _ _ t N' H eq_refl). rewrite phi_none; [lra|]. cbn. intros [Q|[]]. apply NI. rewrite Q. apply in_map. eapply nth_error_In; exact H.
Qed.

Lemma cyc_fun l x y y' : NoDup l -> cyc l x y -> cyc l x y' -> y = y'.
Proof.
  intros N [(n & A & B)|(A & B)] [(n' & A' & B')|(A' & B')]; try congruence.
  - assert (n = n') by (eapply (proj1 (NoDup_nth_error l) N); [apply nth_error_Some; congruence|congruence]). congruence.
  - exfalso. assert (n < length l)%nat by (apply nth_error_Some; congruence). assert (S n < length l)%nat by (apply nth_error_Some; congruence).
    assert (n = length l - 1)%nat by (eapply (proj1 (NoDup_nth_error l) N); [assumption|congruence]). lia.
  - exfalso. assert (n' < length l)%nat by (apply nth_error_Some; congruence). assert (S n' < length l)%nat by (apply nth_error_Some; congruence).
    assert (n' = length l - 1)%nat by (eapply (proj1 (NoDup_nth_error l) N); [assumption|congruence]). lia.
Qed.

(** ---- relations between the columns ---- *)
Lemma past_S (gap : Z -> bool) : forall j W f, nth_error W j = Some f -> pastAt gap false W (S j) = (pastAt gap false W j || gap f)%bool.
Proof.
  unfold pastAt. cbn [orb]. induction j as [|j IH]; intros [|y W] f H; try discriminate.
  - cbn in H. injection H as ->. cbn. now rewrite orb_false_r.
  - cbn [nth_error] in H. change (firstn (S (S j)) (y :: W)) with (y :: firstn (S j) W). change (firstn (S j) (y :: W)) with (y :: firstn j W). cbn [existsb]. rewrite (IH _ _ H). now rewrite orb_assoc.
Qed.
Section Cols.
Variables (N : nat) (o : bool) (gap : Z -> bool) (W : list Z).
Hypotheses (N1 : (1 <= N)%nat) (LW : length W = (2 * N)%nat).
Let n := Z.of_nat N.
Definition q0 (j : nat) : R := cc0 n o gap false (n - 1) (if o then - (IZR n - 2) / (2 * IZR n) else 0)%R W j.
Definition q1 (j : nat) : R := cc1 n o gap false (n - 1) W j.
Definition q2 (j : nat) : R := cc2 (1 / 2) W j.
Lemma n_pos : (0 < IZR n)%R.
Proof. apply IZR_lt. unfold n. lia. Qed.
Lemma q_pair j f : nth_error W j = Some f -> (S j < 2 * N)%nat -> (o = true -> gap f = false) -> (q1 j + q0 (S j) = 0)%R.
Proof.
  intros H L GF. pose proof n_pos. unfold q0, q1, cc0, cc1. rewrite LW. destruct (Nat.eqb_spec (S j) (2 * N)); [lia|]. destruct o.
  - rewrite (past_S gap H), GF, orb_false_r by reflexivity. destruct (pastAt gap false W j); field; lra.
  - replace (n - 1 - Z.of_nat (S j) + 1) with (n - 1 - Z.of_nat j) by lia. field. lra.
Qed.
Lemma q_wrap : (q1 (2 * N - 1) + q0 0 = 0)%R.
Proof.
  pose proof n_pos. unfold q0, q1, cc0, cc1. rewrite LW. destruct (Nat.eqb_spec (S (2 * N - 1)) (2 * N)); [|lia]. destruct o; field; lra.
Qed.
Lemma q_two j : q2 j = (if (Nat.eqb j 0 || Nat.eqb (S j) (2 * N))%bool then 1 / 2 else 0)%R.
Proof. unfold q2, cc2. rewrite LW. destruct (Nat.eqb_spec (S j) (2 * N)); [now rewrite orb_true_r|]. now destruct j. Qed.
Lemma q_sum j : (j < 2 * N)%nat -> (o = true -> pastAt gap false W (2 * N - 1) = true) -> (q0 j + q1 j + q2 j = if o then 0 else 1 / (2 * IZR n))%R.
Proof.
  intros L PA. pose proof n_pos. rewrite q_two. unfold q0, q1, cc0, cc1. rewrite LW.
  destruct j as [|j].
  - destruct (Nat.eqb_spec 1 (2 * N)); [lia|]. cbn [Nat.eqb orb]. destruct o; [|field_simplify; try lra; rewrite Z.sub_0_r, minus_IZR; field; lra].
    unfold pastAt. cbn [firstn existsb orb]. field. lra.
  - change (Nat.eqb (S j) 0) with false. cbn [orb]. destruct (Nat.eqb_spec (S (S j)) (2 * N)) as [E|E].
    + destruct o.
      * replace (S j) with (2 * N - 1)%nat by lia. rewrite PA by reflexivity. field. lra.
      * replace (n - 1 - Z.of_nat (S j) + 1) with (1 - n) by (unfold n; lia). rewrite minus_IZR. field. lra.
    + destruct o.
      * destruct (pastAt gap false W (S j)); field; lra.
      * rewrite plus_IZR. field. lra.
Qed.
Lemma q_ends : o = false -> (q1 (2 * N - 1) = 0 /\ q0 0 = 0)%R.
Proof. intro Q. unfold q0, q1, cc0, cc1. rewrite LW, Q. destruct (Nat.eqb_spec (S (2 * N - 1)) (2 * N)); [auto|lia]. Qed.
End Cols.
