(** Lagrange node arithmetic. *)
From Coq Require Import Permutation.
From Verif Require Import Base SegModel SegSpec AsmModel SpaceModel SpaceSpec SpaceProofs RangeProofs PolyModel PolySpec.
Set Implicit Arguments.
Local Open Scope Z_scope.

Lemma half_even y : 2 * (y * (y - 1) / 2) = y * (y - 1).
Proof.
  assert (E : (y * (y - 1)) mod 2 = 0).
  { destruct (Z.Even_or_Odd y) as [(k & ->)|(k & ->)].
    - replace (2 * k * (2 * k - 1)) with (k * (2 * k - 1) * 2) by ring. apply Z_mod_mult.
    - replace ((2 * k + 1) * (2 * k + 1 - 1)) with ((2 * k + 1) * k * 2) by ring. apply Z_mod_mult. }
  pose proof (Z_div_mod_eq_full (y * (y - 1)) 2). lia.
Qed.
Lemma rowStart_2 p y : 2 * rowStart p y = y * (2 * p + 3 - y).
Proof. unfold rowStart. pose proof (half_even y). nia. Qed.
Lemma total_2 p : 2 * ((p + 1) * (p + 2) / 2) = (p + 1) * (p + 2).
Proof. pose proof (half_even (p + 2)). replace ((p + 2) * (p + 2 - 1)) with ((p + 1) * (p + 2)) in H by ring. exact H. Qed.
Lemma bubbles_2 p : 2 * ((p - 1) * (p - 2) / 2) = (p - 1) * (p - 2).
Proof. pose proof (half_even (p - 1)). replace ((p - 1) * (p - 1 - 1)) with ((p - 1) * (p - 2)) in H by ring. exact H. Qed.

(** sum of M - y for y in a .. a+n-1 *)
Lemma sum_down : forall n a M, (a + n <= S M)%nat ->
  2 * Z.of_nat (list_sum (map (fun y => (M - y)%nat) (seq a n))) = Z.of_nat n * (2 * Z.of_nat M - 2 * Z.of_nat a - Z.of_nat n + 1).
Proof.
  induction n as [|n IH]; intros a M L; [reflexivity|]. cbn [seq map list_sum fold_right].
  specialize (IH (S a) M). unfold list_sum in IH. rewrite Nat2Z.inj_add, Z.mul_add_distr_l, IH by lia. rewrite Nat2Z.inj_sub by lia. nia.
Qed.

Lemma flat_map_seq_nth A (f : nat -> list A) : forall n a k x, (k < n)%nat -> (x < length (f (a + k)))%nat ->
  nth_error (flat_map f (seq a n)) (list_sum (map (fun j => length (f j)) (seq a k)) + x) = nth_error (f (a + k)%nat) x.
Proof.
  induction n as [|n IH]; intros a k x L X; [lia|]. cbn [seq flat_map]. destruct k as [|k].
  - cbn. rewrite Nat.add_0_r in *. now apply nth_error_app1.
  - cbn [seq map list_sum fold_right]. rewrite nth_error_app2 by lia.
    replace (a + S k)%nat with (S a + k)%nat in * by lia.
    match goal with |- nth_error _ ?q = _ => replace q with (list_sum (map (fun j => length (f j)) (seq (S a) k)) + x)%nat by (unfold list_sum; lia) end.
    apply IH; lia || exact X.
Qed.
Lemma flat_map_length A (B : Type) (f : A -> list B) l : length (flat_map f l) = list_sum (map (fun j => length (f j)) l).
Proof. induction l as [|a l IH]; [reflexivity|]. cbn [flat_map map list_sum fold_right]. rewrite app_length, IH. reflexivity. Qed.

Section Order.
Variable p : nat.
Definition slot (n : nat * nat) : Z := rowStart (Z.of_nat p) (Z.of_nat (snd n)) + Z.of_nat (fst n).
Definition isNode (n : nat * nat) : Prop := (fst n + snd n <= p)%nat.
Lemma in_nodes n : In n (nodes p) <-> isNode n.
Proof.
  destruct n as [x y]. unfold nodes, isNode. rewrite in_flat_map. cbn [fst snd]. split.
  - intros (y' & I & J). rewrite in_map_iff in J. destruct J as (x' & E & J). rewrite in_seq in I, J. injection E as -> ->. lia.
  - intros L. exists y. rewrite in_seq. split; [lia|]. apply in_map_iff. exists x. rewrite in_seq. split; [reflexivity|lia].
Qed.
Lemma nodes_length : Z.of_nat (length (nodes p)) = (Z.of_nat p + 1) * (Z.of_nat p + 2) / 2.
Proof.
  unfold nodes. rewrite flat_map_length. rewrite (map_ext _ (fun y => (S p - y)%nat)) by (intros; now rewrite map_length, seq_length).
  pose proof (@sum_down (S p) 0 (S p) ltac:(lia)). pose proof (total_2 (Z.of_nat p)). nia.
Qed.
Lemma slot_nth n : isNode n -> 0 <= slot n /\ nth_error (nodes p) (Z.to_nat (slot n)) = Some n.
Proof.
  destruct n as [x y]. unfold isNode. cbn [fst snd]. intros L.
  assert (E : slot (x, y) = Z.of_nat (list_sum (map (fun j => length (map (fun x => (x, j)) (seq 0 (S p - j)))) (seq 0 y)) + x)).
  { unfold slot. cbn [fst snd]. rewrite (map_ext _ (fun y => (S p - y)%nat)) by (intros; now rewrite map_length, seq_length).
    pose proof (@sum_down y 0 (S p) ltac:(lia)) as SD. pose proof (rowStart_2 (Z.of_nat p) (Z.of_nat y)) as RS.
    rewrite Nat2Z.inj_add. rewrite Nat2Z.inj_succ in SD. set (q := Z.of_nat (list_sum _)) in *. assert (2 * rowStart (Z.of_nat p) (Z.of_nat y) = 2 * q) by (rewrite SD, RS; change (Z.of_nat 0) with 0; unfold Z.succ; ring). lia. }
  split; [rewrite E; lia|]. rewrite E, Nat2Z.id. unfold nodes.
  rewrite (@flat_map_seq_nth _ (fun y => map (fun x => (x, y)) (seq 0 (S p - y))) (S p) 0 y x); [|lia|rewrite map_length, seq_length; lia].
  cbn [Nat.add]. rewrite nth_error_map. rewrite (nth_error_nth' _ 0%nat) by (rewrite seq_length; lia). rewrite seq_nth by lia. reflexivity.
Qed.
Lemma slot_inj n n' : isNode n -> isNode n' -> slot n = slot n' -> n = n'.
Proof. intros A B E. apply slot_nth in A as (_ & A). apply slot_nth in B as (_ & B). rewrite E in A. congruence. Qed.
Lemma slot_lt n : isNode n -> 0 <= slot n < Z.of_nat (length (nodes p)).
Proof. intros A. apply slot_nth in A as (P & A). split; [exact P|]. assert (Z.to_nat (slot n) < length (nodes p))%nat by (apply nth_error_Some; congruence). lia. Qed.
Lemma nodes_NoDup : NoDup (nodes p).
Proof.
  unfold nodes. generalize (seq_NoDup (S p) 0). induction (seq 0 (S p)) as [|y l IH]; intros ND; [constructor|]. inversion ND; subst.
  cbn [flat_map]. apply NoDup_app2; [|now apply IH|].
  - apply FinFun.Injective_map_NoDup; [|apply seq_NoDup]. intros a b E. congruence.
  - intros [x z] I J. apply in_map_iff in I as (x' & E & _). injection E as -> ->. apply in_flat_map in J as (y' & Iy & J).
    apply in_map_iff in J as (x'' & E & _). injection E as -> ->. contradiction.
Qed.
Lemma nth_slot i n : nth_error (nodes p) i = Some n -> isNode n /\ slot n = Z.of_nat i.
Proof.
  intros H. assert (I : isNode n) by (apply in_nodes; eapply nth_error_In; eauto). split; [exact I|].
  apply slot_nth in I as (P & N). assert (Z.to_nat (slot n) = i); [|lia].
  apply (proj1 (NoDup_nth_error (nodes p)) nodes_NoDup); [apply nth_error_Some; congruence|congruence].
Qed.

(** ---- classification ---- *)
Inductive ckind := Corner (k : nat) | Side (k l : nat) | Inner.
Definition classify (n : nat * nat) : ckind :=
  match bary p n with
  | [_; 0; 0]%nat => Corner 0
  | [0; _; 0]%nat => Corner 1
  | [0; 0; _]%nat => Corner 2
  | [_; x; 0]%nat => Side 0 x
  | [_; 0; y]%nat => Side 1 y
  | [0; _; y]%nat => Side 2 y
  | _ => Inner
  end.
Definition cornerNode (k : nat) : nat * nat := match k with 0 => (0, 0) | 1 => (p, 0) | _ => (0, p) end%nat.
Definition sideNode (k l : nat) : nat * nat := match k with 0 => (l, 0) | 1 => (0, l) | _ => (p - l, l) end%nat.
Definition innerNodes : list (nat * nat) :=
  flat_map (fun y => map (fun x => (x, y)) (seq 1 (p - 1 - y))) (seq 1 (p - 1)).
Definition nodeOrder : list (nat * nat) :=
  [cornerNode 0; cornerNode 1; cornerNode 2] ++
  (map (sideNode 0) (seq 1 (p - 1)) ++ map (sideNode 1) (seq 1 (p - 1)) ++ map (sideNode 2) (seq 1 (p - 1))) ++ innerNodes.
Hypothesis pos : (1 <= p)%nat.
Lemma classify_spec n : isNode n ->
  match classify n with
  | Corner k => (k < 3)%nat /\ n = cornerNode k
  | Side k l => (k < 3)%nat /\ (1 <= l <= p - 1)%nat /\ n = sideNode k l
  | Inner => (1 <= fst n)%nat /\ (1 <= snd n)%nat /\ (fst n + snd n < p)%nat
  end.
Proof.
  destruct n as [x y]. unfold isNode, classify, bary. cbn [fst snd]. intros L.
  destruct (p - x - y)%nat as [|z] eqn:E; destruct x as [|x]; destruct y as [|y]; cbn [cornerNode sideNode fst snd]; try lia;
    repeat split; try lia; f_equal; lia.
Qed.
Lemma classify_corner k : (k < 3)%nat -> classify (cornerNode k) = Corner k.
Proof.
  intros L. destruct k as [|[|[|k]]]; [| | |lia]; unfold classify, bary, cornerNode; cbn [fst snd].
  - rewrite !Nat.sub_0_r. now destruct p.
  - rewrite Nat.sub_0_r, Nat.sub_diag. now destruct p as [|[|]]; [lia| |].
  - rewrite Nat.sub_0_r, Nat.sub_diag. now destruct p as [|[|]]; [lia| |].
Qed.
Lemma classify_side k l : (k < 3)%nat -> (1 <= l <= p - 1)%nat -> classify (sideNode k l) = Side k l.
Proof.
  intros L M. destruct k as [|[|[|k]]]; [| | |lia]; unfold classify, bary, sideNode; cbn [fst snd].
  - rewrite Nat.sub_0_r. destruct (p - l)%nat eqn:E; [lia|]. now destruct l; [lia|].
  - rewrite Nat.sub_0_r. destruct (p - l)%nat eqn:E; [lia|]. now destruct l; [lia|].
  - replace (p - (p - l) - l)%nat with 0%nat by lia. destruct (p - l)%nat eqn:E; [lia|]. now destruct l; [lia|].
Qed.
Lemma in_inner n : In n innerNodes <-> ((1 <= fst n)%nat /\ (1 <= snd n)%nat /\ (fst n + snd n < p)%nat).
Proof.
  destruct n as [x y]. unfold innerNodes. rewrite in_flat_map. cbn [fst snd]. split.
  - intros (y' & I & J). rewrite in_map_iff in J. destruct J as (x' & E & J). rewrite in_seq in I, J. injection E as -> ->. lia.
  - intros L. exists y. rewrite in_seq. split; [lia|]. apply in_map_iff. exists x. rewrite in_seq. split; [reflexivity|lia].
Qed.
Lemma inner_NoDup : NoDup innerNodes.
Proof.
  unfold innerNodes. generalize (seq_NoDup (p - 1) 1). induction (seq 1 (p - 1)) as [|y l IH]; intros ND; [constructor|]. inversion ND; subst.
  cbn [flat_map]. apply NoDup_app2; [|now apply IH|].
  - apply FinFun.Injective_map_NoDup; [|apply seq_NoDup]. intros a b E. congruence.
  - intros [x z] I J. apply in_map_iff in I as (x' & E & _). injection E as -> ->. apply in_flat_map in J as (y' & Iy & J).
    apply in_map_iff in J as (x'' & E & _). injection E as -> ->. contradiction.
Qed.
Lemma inner_length : Z.of_nat (length innerNodes) = (Z.of_nat p - 1) * (Z.of_nat p - 2) / 2.
Proof.
  unfold innerNodes. rewrite flat_map_length. rewrite (map_ext _ (fun y => (p - 1 - y)%nat)) by (intros; now rewrite map_length, seq_length).
  pose proof (@sum_down (p - 1) 1 (p - 1) ltac:(lia)). pose proof (bubbles_2 (Z.of_nat p)). nia.
Qed.
Lemma classify_inner n : In n innerNodes -> classify n = Inner.
Proof.
  intros I. apply in_inner in I as (A & B & C). destruct n as [x y]. unfold classify, bary. cbn [fst snd] in *.
  destruct (p - x - y)%nat eqn:E; [lia|]. now destruct x; [lia|]; destruct y; [lia|].
Qed.
Lemma corner_node k : (k < 3)%nat -> isNode (cornerNode k).
Proof. intros L. unfold isNode. destruct k as [|[|[|k]]]; cbn; lia. Qed.
Lemma side_node k l : (k < 3)%nat -> (1 <= l <= p - 1)%nat -> isNode (sideNode k l).
Proof. intros L. unfold isNode. destruct k as [|[|[|k]]]; cbn; lia. Qed.
Lemma in_order n : In n nodeOrder <-> isNode n.
Proof.
  unfold nodeOrder. rewrite !in_app_iff, !in_map_iff. split.
  - intros [I|[[(l & <- & I)|[(l & <- & I)|(l & <- & I)]]|I]].
    + destruct I as [<-|[<-|[<-|[]]]]; apply corner_node; lia.
    + apply in_seq in I. apply side_node; lia.
    + apply in_seq in I. apply side_node; lia.
    + apply in_seq in I. apply side_node; lia.
    + apply in_inner in I. unfold isNode. lia.
  - intros I. pose proof (classify_spec I) as C. destruct (classify n) as [k|k l|].
    + left. destruct C as (L & ->). destruct k as [|[|[|k]]]; cbn; tauto || lia.
    + right. left. destruct C as (L & M & ->). destruct k as [|[|[|k]]]; [left|right;left|right;right|lia]; exists l; rewrite in_seq; split; auto; lia.
    + right. right. now apply in_inner.
Qed.
Lemma order_NoDup : NoDup nodeOrder.
Proof.
  assert (C : forall n, In n [cornerNode 0; cornerNode 1; cornerNode 2] -> exists k, classify n = Corner k).
  { intros n [<-|[<-|[<-|[]]]]; eexists; apply classify_corner; lia. }
  assert (SD : forall k n, (k < 3)%nat -> In n (map (sideNode k) (seq 1 (p - 1))) -> exists l, classify n = Side k l).
  { intros k n L I. apply in_map_iff in I as (l & <- & I). apply in_seq in I. eexists. apply classify_side; lia. }
  assert (NS : forall k, (k < 3)%nat -> NoDup (map (sideNode k) (seq 1 (p - 1)))).
  { intros k L. assert (G : forall l, incl l (seq 1 (p - 1)) -> NoDup l -> NoDup (map (sideNode k) l)); [|apply G; [apply incl_refl|apply seq_NoDup]].
    induction l as [|a l IH]; intros IN ND; [constructor|]. inversion ND; subst. cbn. constructor; [|apply IH; [|assumption]; intros b Ib; apply IN; now right].
    intros I. apply in_map_iff in I as (b & E & I).
    assert (A : In a (seq 1 (p - 1))) by (apply IN; now left). assert (B : In b (seq 1 (p - 1))) by (apply IN; now right). apply in_seq in A, B.
    assert (EC : classify (sideNode k a) = classify (sideNode k b)) by now rewrite E.
    rewrite !classify_side in EC by lia. injection EC as ->. contradiction. }
  unfold nodeOrder. apply NoDup_app2; [|apply NoDup_app2; [apply NoDup_app2; [apply NS; lia|apply NoDup_app2; [apply NS; lia|apply NS; lia|]|]|apply inner_NoDup|]|].
  - assert (G : forall j k, (j < 3)%nat -> (k < 3)%nat -> cornerNode j = cornerNode k -> j = k).
    { intros j k J L E. assert (EC : classify (cornerNode j) = classify (cornerNode k)) by now rewrite E. rewrite !classify_corner in EC by lia. now injection EC. }
    constructor; [|constructor; [|constructor; [exact (fun H => H)|constructor]]].
    + intros [H|[H|[]]]; apply G in H; lia.
    + intros [H|[]]; apply G in H; lia.
  - intros n I J. apply SD in I as (l & I); [|lia]. apply SD in J as (l' & J); [|lia]. congruence.
  - intros n I J. apply SD in I as (l & I); [|lia]. apply in_app_iff in J as [J|J]; (apply SD in J as (l' & J); [|lia]; congruence).
  - intros n I J. apply classify_inner in J. rewrite !in_app_iff in I. destruct I as [I|[I|I]]; (apply SD in I as (l & I); [|lia]; congruence).
  - intros n I J. apply C in I as (k & I). rewrite !in_app_iff in J. destruct J as [[J|[J|J]]|J].
    1-3: apply SD in J as (l' & J); [|lia]; congruence.
    apply classify_inner in J. congruence.
Qed.
Lemma order_perm : Permutation nodeOrder (nodes p).
Proof. apply NoDup_Permutation; [apply order_NoDup|apply nodes_NoDup|]. intros n. now rewrite in_order, in_nodes. Qed.

(** the code's indices *)
Lemma cornerIndex_slot k : (k < 3)%nat -> cornerIndex (Z.of_nat p) k = slot (cornerNode k).
Proof.
  intros L. destruct k as [|[|[|k]]]; [| | |lia]; unfold slot, cornerNode, cornerIndex; cbn [fst snd].
  - reflexivity.
  - reflexivity.
  - pose proof (rowStart_2 (Z.of_nat p) (Z.of_nat p)). pose proof (total_2 (Z.of_nat p)). nia.
Qed.
Lemma edgeIndex_slot k l : (k < 3)%nat -> (1 <= l <= p - 1)%nat -> edgeIndex (Z.of_nat p) k (Z.of_nat l) = slot (sideNode k l).
Proof.
  intros L M. destruct k as [|[|[|k]]]; [| | |lia]; unfold slot, sideNode, edgeIndex; cbn [fst snd].
  - reflexivity.
  - lia.
  - rewrite Nat2Z.inj_sub by lia. reflexivity.
Qed.
Lemma zseq_nat a n : zseq (Z.of_nat a) n = map Z.of_nat (seq a n).
Proof.
  unfold zseq. revert a. induction n as [|n IH]; intros a; [reflexivity|]. cbn [seq map]. f_equal; [lia|].
  rewrite <- IH, <- seq_shift, map_map. apply map_ext. intros. lia.
Qed.
Lemma bubbleIndices_slot : bubbleIndices (Z.of_nat p) = map slot innerNodes.
Proof.
  unfold bubbleIndices, innerNodes. replace (Z.to_nat (Z.of_nat p - 1)) with (p - 1)%nat by lia.
  change 1 with (Z.of_nat 1) at 2. rewrite (zseq_nat 1). induction (seq 1 (p - 1)) as [|y l IH]; [reflexivity|].
  cbn [map flat_map]. rewrite map_app, IH. f_equal. change 1 with (Z.of_nat 1) at 1. rewrite (zseq_nat 1), !map_map.
  match goal with |- map _ (seq 1 ?a) = map _ (seq 1 ?b) => replace a with b by lia end. reflexivity.
Qed.
End Order.
