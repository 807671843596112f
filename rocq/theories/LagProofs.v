From Coq Require Import Reals Lra Lia Permutation.
From Verif Require Import Base ComplexR SegModel SegSpec SegProofs AsmModel SpaceModel SpaceSpec SpaceProofs SpaceP1Proofs PolyModel PolySpec PolyProofs1 PolyProofs2 PolyProofs3 PolyProofs4 PolyProofs5 PolyProofs6
  VecModel VecSpec VecProofs VecProofs3 LagModel LagSpec.
Set Implicit Arguments.
Unset Strict Implicit.
Local Open Scope R_scope.

(** ---- products ---- *)
Lemma loop_acc (l : list nat) (f : nat -> R) : forall a, fold_left (fun acc x => acc * f x) l a = a * fold_left (fun acc x => acc * f x) l 1.
Proof. induction l as [|x l IH]; intros a; cbn; [ring|]. rewrite IH, (IH (1 * f x)). ring. Qed.
Lemma loop_cons x l f : loopProduct (x :: l) f = f x * loopProduct l f.
Proof. unfold loopProduct. cbn [fold_left]. rewrite loop_acc. ring. Qed.
Lemma loop_app l l' f : loopProduct (l ++ l') f = loopProduct l f * loopProduct l' f.
Proof. induction l as [|x l IH]; cbn [app]; [unfold loopProduct at 2; cbn; ring|]. rewrite !loop_cons, IH. ring. Qed.
Lemma loop_ext l f h : (forall x, In x l -> f x = h x) -> loopProduct l f = loopProduct l h.
Proof. induction l as [|x l IH]; intros H; [reflexivity|]. rewrite !loop_cons, H, IH by (first [now left|intros; apply H; now right]). reflexivity. Qed.
Lemma loop_map l (t : nat -> nat) f : loopProduct (map t l) f = loopProduct l (fun x => f (t x)).
Proof. induction l as [|x l IH]; [reflexivity|]. cbn [map]. now rewrite !loop_cons, IH. Qed.
Lemma loop_zero l f x : In x l -> f x = 0 -> loopProduct l f = 0.
Proof. induction l as [|y l IH]; intros I E; [destruct I|]. rewrite loop_cons. destruct I as [->|I]; [rewrite E; ring|rewrite (IH I E); ring]. Qed.
Lemma loop_one l f : (forall x, In x l -> f x = 1) -> loopProduct l f = 1.
Proof. induction l as [|x l IH]; intros H; [reflexivity|]. rewrite loop_cons, H, IH by (first [now left|intros; apply H; now right]). ring. Qed.
Lemma loop_perm l l' f : Permutation l l' -> loopProduct l f = loopProduct l' f.
Proof. induction 1; [reflexivity|rewrite !loop_cons; congruence|rewrite !loop_cons; ring|congruence]. Qed.

Lemma map_NoDup_in (A B : Type) (f : A -> B) l : (forall a b, In a l -> In b l -> f a = f b -> a = b) -> NoDup l -> NoDup (map f l).
Proof.
  induction l as [|x l IH]; intros H N; cbn; [constructor|]. inversion N as [|? ? N1 N2]; subst. constructor.
  - intros I. apply in_map_iff in I as (y & E & I). apply N1. rewrite (H x y); [exact I|now left|now right|congruence].
  - apply IH; [|exact N2]. intros a b I J. apply H; now right.
Qed.
(** one-dimensional factor: product over a < i of (p t - a) / (i - a) *)
Definition lag (p i : nat) (t : R) : R := loopProduct (seq 0 i) (fun a => (INR p * t - INR a) / (INR i - INR a)).
Lemma lag0 p t : lag p 0 t = 1.
Proof. reflexivity. Qed.
Lemma lag_zero p i : (1 <= i)%nat -> lag p i 0 = 0.
Proof. intros L. unfold lag. apply loop_zero with (x := 0%nat); [apply in_seq; lia|]. cbn [INR]. unfold Rdiv. ring. Qed.
Lemma lag_self p i : (1 <= p)%nat -> lag p i (INR i / INR p) = 1.
Proof.
  intros P. assert (INR p <> 0) by (apply not_0_INR; lia). unfold lag. apply loop_one. intros a I. apply in_seq in I.
  assert (INR a < INR i) by (apply lt_INR; lia). field. split; lra.
Qed.
Lemma lag_below p i a : (1 <= p)%nat -> (a < i)%nat -> lag p i (INR a / INR p) = 0.
Proof.
  intros P L. assert (INR p <> 0) by (apply not_0_INR; lia). unfold lag. apply loop_zero with (x := a); [apply in_seq; lia|].
  replace (INR p * (INR a / INR p) - INR a) with 0 by (field; assumption). unfold Rdiv. ring.
Qed.
Lemma pk_lag p n q : (1 <= p)%nat -> isNode p n ->
  pkFunction p n q = lag p (p - fst n - snd n) (1 - fst q - snd q) * lag p (fst n) (fst q) * lag p (snd n) (snd q).
Proof.
  intros P N. destruct n as [i j], q as [x y]. unfold isNode in N. unfold pkFunction, lag, pkPos. cbn [fst snd] in *.
  assert (P0 : INR p <> 0) by (apply not_0_INR; lia).
  assert (A : forall i x, loopProduct (seq 0 i) (fun a => (x - INR a / INR p) / (INR i / INR p - INR a / INR p)) = loopProduct (seq 0 i) (fun a => (INR p * x - INR a) / (INR i - INR a))).
  { intros k t. apply loop_ext. intros a I. apply in_seq in I. assert (INR a < INR k) by (apply lt_INR; lia). field. split; lra. }
  rewrite !A.
  assert (B : loopProduct (seq (i + j + 1) (p - i - j)) (fun c => (INR c / INR p - x - y) / (INR c / INR p - INR i / INR p - INR j / INR p)) =
    loopProduct (seq 0 (p - i - j)) (fun a => (INR p * (1 - x - y) - INR a) / (INR (p - i - j) - INR a))).
  { assert (PM : Permutation (seq (i + j + 1) (p - i - j)) (map (fun a => (p - a)%nat) (seq 0 (p - i - j)))).
    { apply NoDup_Permutation; [apply seq_NoDup| |].
      - apply map_NoDup_in; [|apply seq_NoDup]. intros a b I1 I2 E. apply in_seq in I1, I2. lia.
      - intros c. rewrite in_seq, in_map_iff. split.
        + intros R. exists (p - c)%nat. rewrite in_seq. lia.
        + intros (a & <- & I). apply in_seq in I. lia. }
    rewrite (loop_perm _ PM), loop_map. apply loop_ext. intros a I. apply in_seq in I.
    rewrite !minus_INR by lia. assert (INR a < INR p - INR i - INR j). { rewrite <- !minus_INR by lia. apply lt_INR. lia. }
    field. split; lra. }
  rewrite B. ring.
Qed.
Lemma p1_pk k q : (k < 3)%nat -> p1Function k q = pkFunction 1 (nth k (nodes 1) (0%nat, 0%nat)) q.
Proof.
  intros L. destruct q as [x y]. destruct k as [|[|[|]]]; [| | |lia]; cbn [nodes flat_map seq map app nth Nat.sub p1Function pkFunction fst snd]; unfold loopProduct, pkPos; cbn [seq fold_left INR Nat.add Nat.sub]; field.
Qed.
(** nodal basis *)
Lemma pk_nodal p n m : (1 <= p)%nat -> isNode p n -> isNode p m -> pkFunction p n (nodePoint p m) = if Nat.eqb (fst n) (fst m) && Nat.eqb (snd n) (snd m) then 1 else 0.
Proof.
  intros P N M. rewrite (pk_lag _ P N). unfold nodePoint, isNode in *. destruct n as [i j], m as [k l]. cbn [fst snd] in *.
  assert (P0 : INR p <> 0) by (apply not_0_INR; lia).
  replace (1 - INR k / INR p - INR l / INR p) with (INR (p - k - l) / INR p) by (rewrite !minus_INR by lia; field; assumption).
  destruct (Nat.eqb_spec i k) as [->|NE]; cbn [andb]; [destruct (Nat.eqb_spec j l) as [->|NE]|].
  - rewrite !lag_self by assumption. ring.
  - destruct (Nat.lt_ge_cases l j) as [L|L]; [rewrite (@lag_below p j l) by lia; ring|]. rewrite (@lag_below p (p - k - j) (p - k - l)) by lia. ring.
  - destruct (Nat.lt_ge_cases k i) as [L|L]; [rewrite (@lag_below p i k) by lia; ring|].
    destruct (Nat.lt_ge_cases l j) as [L'|L']; [rewrite (@lag_below p j l) by lia; ring|]. rewrite (@lag_below p (p - i - j) (p - k - l)) by lia. ring.
Qed.

(** ---- sums ---- *)
Definition rsum {A} (l : list A) (f : A -> R) : R := fold_right (fun x acc => f x + acc) 0 l.
Lemma rsum_cons A (x : A) l f : rsum (x :: l) f = f x + rsum l f.
Proof. reflexivity. Qed.
Lemma rsum_ext A (l : list A) f h : (forall x, In x l -> f x = h x) -> rsum l f = rsum l h.
Proof. induction l as [|x l IH]; intros H; [reflexivity|]. rewrite !rsum_cons, H, IH by (first [now left|intros; apply H; now right]). reflexivity. Qed.
Lemma rsum_perm A (l l' : list A) f : Permutation l l' -> rsum l f = rsum l' f.
Proof. induction 1; rewrite ?rsum_cons; [reflexivity|lra|lra|congruence]. Qed.
Lemma rsum_map A B (t : A -> B) l f : rsum (map t l) f = rsum l (fun x => f (t x)).
Proof. induction l as [|x l IH]; cbn [map]; rewrite ?rsum_cons; [reflexivity|]. now rewrite IH. Qed.
Lemma rsum_filter A (b : A -> bool) l f : (forall x, In x l -> b x = false -> f x = 0) -> rsum l f = rsum (filter b l) f.
Proof.
  induction l as [|x l IH]; intros H; [reflexivity|]. cbn [filter]. rewrite rsum_cons, IH by (intros; apply H; auto; now right). destruct (b x) eqn:E; [reflexivity|]. rewrite H by (auto; now left). ring.
Qed.
Lemma rsum_app A (l l' : list A) f : rsum (l ++ l') f = rsum l f + rsum l' f.
Proof. induction l as [|x l IH]; cbn [app]; [unfold rsum at 2; cbn; ring|]. rewrite !rsum_cons, IH. ring. Qed.
Lemma sumScalar_spec value cs n : (n <= length cs)%nat -> sumScalar value cs n = Some (rsum (seq 0 n) (fun f => value f * nth f cs 0)).
Proof.
  induction n as [|n IH]; intros L; [reflexivity|]. unfold sumScalar in *. rewrite seq_S, fold_left_app, IH by lia. cbn [Nat.add fold_left obind].
  rewrite (nth_error_nth' cs 0) by lia. cbn [obind]. rewrite rsum_app, rsum_cons. match goal with |- context [rsum [] ?h] => change (rsum [] h) with 0 end. f_equal. ring.
Qed.
Lemma rsum_nodes A (l : list A) (d : A) f : rsum (seq 0 (length l)) (fun k => f (nth k l d)) = rsum l f.
Proof.
  induction l as [|x l IH]; [reflexivity|]. cbn [length seq]. rewrite !rsum_cons. cbn [nth]. f_equal. rewrite <- seq_shift, rsum_map. cbn [nth]. exact IH.
Qed.
