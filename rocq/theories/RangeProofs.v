From Verif Require Import Base RangeModel.
Local Open Scope Z_scope.
Set Implicit Arguments.

(** no size_t overflow: bounds as they occur for element counts below 2^62 *)
Definition validRange (r : srange) : Prop :=
  0 <= r_begin r /\ 0 < r_step r /\ r_begin r <= r_end r <= 2 ^ 62 /\ r_begin r + r_step r < 2 ^ 64.
(** begin, begin+step, ... below end *)
Definition inRange (r : srange) (z : Z) : Prop := exists k, 0 <= k /\ z = r_begin r + k * r_step r /\ z < r_end r.

Lemma w64_small x : 0 <= x < 2 ^ 64 -> w64 x = x.
Proof. intros. now apply Z.mod_small. Qed.
Lemma split_valid r : validRange r -> is_divisible r = true ->
  validRange (fst (splitRange r)) /\ validRange (snd (splitRange r)) /\
  splitRange r = (SRange (r_begin r) (r_end r) (2 * r_step r), SRange (r_begin r + r_step r) (r_end r) (2 * r_step r)) /\
  r_begin r + r_step r < r_end r.
Proof.
  intros (H1 & H2 & H3 & H4) D. unfold is_divisible in D. rewrite w64_small in D by lia. apply Z.ltb_lt in D.
  unfold validRange, splitRange; cbn [fst snd r_begin r_end r_step]. rewrite !w64_small by lia. rewrite (Z.mul_comm _ 2).
  repeat split; lia.
Qed.
Lemma divisible_iff r : validRange r -> (is_divisible r = true <-> exists a b, a <> b /\ inRange r a /\ inRange r b).
Proof.
  intros (H1 & H2 & H3 & H4). unfold is_divisible. rewrite w64_small by lia. rewrite Z.ltb_lt. split.
  - intros D. exists (r_begin r), (r_begin r + r_step r). split; [lia|]. split; [exists 0|exists 1]; lia.
  - intros (a & b & Hne & (k & Hk & Ea & La) & (m & Hm & Eb & Lb)). assert (k <> m) by congruence.
    destruct (Z.eq_dec k 0); [assert (1 <= m) by lia|assert (1 <= k) by lia]; nia.
Qed.

Fixpoint upto (b s : Z) (n : nat) : list Z := match n with O => [] | S n => b :: upto (b + s) s n end.
Lemma in_upto s : forall n b z, In z (upto b s n) <-> exists k, 0 <= k < Z.of_nat n /\ z = b + k * s.
Proof.
  induction n as [|n IH]; intros b z; cbn [upto In].
  - split; [intros []|]. intros (k & Hk & _). lia.
  - rewrite IH. split.
    + intros [<-|(k & Hk & ->)]; [exists 0|exists (k + 1)]; lia.
    + intros (k & Hk & ->). destruct (Z.eq_dec k 0) as [->|]; [left; lia|right]. exists (k - 1). lia.
Qed.
Lemma upto_NoDup s : 0 < s -> forall n b, NoDup (upto b s n).
Proof.
  intros Hs. induction n as [|n IH]; intros b; cbn [upto]; constructor; [|apply IH].
  rewrite in_upto. intros (k & Hk & E). nia.
Qed.
Lemma upto_length s : forall n b, length (upto b s n) = n.
Proof. induction n; intros b; cbn; auto. Qed.

Lemma size_spec r : validRange r -> 0 <= r_size r /\
  (forall k, 0 <= k -> (r_begin r + k * r_step r < r_end r <-> k < r_size r)).
Proof.
  intros (H1 & H2 & H3 & H4). unfold r_size, r_empty. destruct (Z.leb_spec (r_end r) (r_begin r)) as [He|He].
  - split; [lia|]. intros k Hk. nia.
  - rewrite (@w64_small (r_end r - 1 - r_begin r)) by lia.
    set (q := (r_end r - 1 - r_begin r) / r_step r).
    assert (Hq : 0 <= q) by (apply Z.div_pos; lia).
    pose proof (Z.mul_div_le (r_end r - 1 - r_begin r) (r_step r) H2) as D1. fold q in D1.
    pose proof (Z.mul_succ_div_gt (r_end r - 1 - r_begin r) (r_step r) H2) as D2. fold q in D2.
    rewrite w64_small by nia. split; [lia|]. intros k Hk. split; intros X.
    + destruct (Z.lt_ge_cases k (q + 1)); [assumption|]. nia.
    + nia.
Qed.
Lemma loop_ok r : validRange r -> forall n b, r_begin r <= b -> (exists j, 0 <= j /\ b = r_begin r + j * r_step r) \/ b = r_end r ->
  (forall k, 0 <= k -> (b + k * r_step r < r_end r <-> k < Z.of_nat n)) -> b <= r_end r ->
  loopFrom r n b = Some (upto b (r_step r) n).
Proof.
  intros (H1 & H2 & H3 & H4). induction n as [|n IH]; intros b Hb Hj Hk He; cbn [loopFrom upto].
  - destruct (Z.eqb_spec b (r_end r)); [reflexivity|]. specialize (Hk 0). lia.
  - destruct (Z.eqb_spec b (r_end r)) as [E|Hne]. { specialize (Hk 0). lia. }
    assert (Hs : b + r_step r < 2 ^ 64).
    { destruct (Z.lt_ge_cases (r_step r) (2 ^ 63)); [lia|]. destruct Hj as [(j & Hj & E)|E]; [|lia]. assert (j = 0) by nia. subst j. lia. }
    unfold nextValue. rewrite w64_small by lia. destruct (Z.le_gt_cases (r_end r) (b + r_step r)) as [Hl|Hl].
    + rewrite Z.min_r by lia. assert (n = 0%nat). { destruct (Nat.eq_dec n 0); [assumption|]. specialize (Hk 1). lia. }
      subst n. cbn [loopFrom]. rewrite Z.eqb_refl. reflexivity.
    + rewrite Z.min_l by lia. rewrite IH; [reflexivity|lia| | |lia].
      * left. destruct Hj as [(j & Hj & E)|E]; [|lia]. exists (j + 1). lia.
      * intros k Hk0. specialize (Hk (k + 1)). lia.
Qed.
Definition elems (r : srange) : list Z := upto (r_begin r) (r_step r) (Z.to_nat (r_size r)).
Lemma loop_elems r : validRange r -> loopFrom r (Z.to_nat (r_size r)) (r_begin r) = Some (elems r).
Proof.
  intros V. destruct (size_spec V) as [Hs Hk]. pose proof V as (H1 & H2 & H3 & H4). apply loop_ok; auto; try lia.
  - left. exists 0. lia.
  - intros k Hk0. rewrite Z2Nat.id by lia. now apply Hk.
Qed.
Lemma in_elems r z : validRange r -> (In z (elems r) <-> inRange r z).
Proof.
  intros V. destruct (size_spec V) as [Hs Hk]. unfold elems, inRange. rewrite in_upto, Z2Nat.id by lia. split.
  - intros (k & Hk1 & ->). exists k. split; [lia|]. split; [reflexivity|]. apply Hk; lia.
  - intros (k & Hk1 & -> & L). exists k. split; [|reflexivity]. apply Hk in L; lia.
Qed.
Lemma elems_NoDup r : validRange r -> NoDup (elems r).
Proof. intros (H1 & H2 & _). now apply upto_NoDup. Qed.

Lemma NoDup_app2 A (l1 l2 : list A) : NoDup l1 -> NoDup l2 -> (forall x, In x l1 -> In x l2 -> False) -> NoDup (l1 ++ l2).
Proof. intros. apply NoDup_app; eauto. Qed.
Lemma split_perm r : validRange r -> is_divisible r = true ->
  Permutation (elems (fst (splitRange r)) ++ elems (snd (splitRange r))) (elems r).
Proof.
  intros V D. destruct (split_valid V D) as (V1 & V2 & E & L). pose proof V as (H1 & H2 & _). rewrite E in *. cbn [fst snd] in *.
  assert (P : forall k, exists j, k = 2 * j \/ k = 2 * j + 1) by (intros k; exists (k / 2); pose proof (Z.div_mod k 2); pose proof (Z.mod_pos_bound k 2); lia).
  apply NoDup_Permutation.
  - apply NoDup_app2; try now apply elems_NoDup.
    intros x. rewrite !in_elems by assumption. unfold inRange; cbn [r_begin r_end r_step]. intros (k & Hk & Ek & _) (m & Hm & Em & _).
    assert (X : r_step r * (2 * k - (1 + 2 * m)) = 0) by (rewrite Em in Ek; ring_simplify in Ek; ring_simplify; lia). apply Z.mul_eq_0 in X. lia.
  - now apply elems_NoDup.
  - intros x. rewrite in_app_iff, !in_elems by assumption. unfold inRange; cbn [r_begin r_end r_step]. split.
    + intros [(k & Hk & -> & Lk)|(k & Hk & -> & Lk)]; [exists (2 * k)|exists (2 * k + 1)]; lia.
    + intros (k & Hk & -> & Lk). destruct (P k) as (j & [->| ->]); [left|right]; exists j; lia.
Qed.
Theorem splits_ok r l : splitsInto r l -> validRange r ->
  Permutation (flat_map elems l) (elems r) /\ (forall q, In q l -> validRange q) /\
  (elems r <> [] -> forall q, In q l -> elems q <> []).
Proof.
  intros S. induction S as [r|r l1 l2 D S1 IH1 S2 IH2]; intros V.
  - cbn. rewrite app_nil_r. split; [reflexivity|]. split; intros; [destruct H as [<-|[]]|destruct H0 as [<-|[]]]; auto.
  - destruct (split_valid V D) as (V1 & V2 & E & L). destruct (IH1 V1) as (P1 & Q1 & N1), (IH2 V2) as (P2 & Q2 & N2).
    split; [|split].
    + rewrite flat_map_app, P1, P2. now apply split_perm.
    + intros q Hq. apply in_app_iff in Hq. destruct Hq; auto.
    + intros _ q Hq. pose proof V as (H1 & H2 & _). apply in_app_iff in Hq. destruct Hq as [Hq|Hq]; [apply N1|apply N2]; auto.
      * intros X. assert (In (r_begin r) (elems (fst (splitRange r)))) as Y by (apply in_elems; [assumption|]; rewrite E; exists 0; cbn [fst snd r_begin r_end r_step]; lia). rewrite X in Y. destruct Y.
      * intros X. assert (In (r_begin r + r_step r) (elems (snd (splitRange r)))) as Y by (apply in_elems; [assumption|]; rewrite E; exists 0; cbn [fst snd r_begin r_end r_step]; lia). rewrite X in Y. destruct Y.
Qed.
