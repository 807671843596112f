(** C43, C44, C80, C81: the multidimensional arrays of Fiber. *)
From Coq Require Import ZArith.
From Verif Require Import Base ArrayModel ArraySpec ArrayProofs.
Set Implicit Arguments.
Local Open Scope Z_scope.

(** C43 (a): every in-range index tuple has its own place in the storage, namely
    the column-major one, and every place belongs to one *)
Theorem array_addressing : forall (T : Type) (checked : bool) (a : arr T), properArray a ->
  (forall i, inRange (a_ext a) i ->
     position checked a i = Ok (Z.to_nat (columnMajor (a_ext a) i)) /\ 0 <= columnMajor (a_ext a) i < product (a_ext a)) /\
  (forall i j, inRange (a_ext a) i -> inRange (a_ext a) j -> position checked a i = position checked a j -> i = j) /\
  (forall o, (o < length (a_data a))%nat -> exists i, inRange (a_ext a) i /\ position checked a i = Ok o).
Proof.
  intros T c a Ha. split; [|split].
  - intros i Hi. split; [apply (position_ok c Ha Hi)|apply (columnMajor_bounds Hi)].
  - intros i j Hi Hj E. destruct (position_ok c Ha Hi) as (Ei & _), (position_ok c Ha Hj) as (Ej & _).
    apply (position_inj Hi Hj). congruence.
  - intros o Ho. pose proof Ha as (Hl & Hn & Hp & Hd).
    destruct (columnMajor_onto (o := Z.of_nat o) Hn) as (i & Hi & Ei); [lia|].
    exists i. split; [exact Hi|]. destruct (position_ok c Ha Hi) as (E & _). rewrite E, Ei. f_equal. lia.
Qed.
(** C43 (b): an assignment changes exactly one element; with bounds checks, an index out of range throws *)
Theorem array_assignment : forall (T : Type) (checked : bool) (a : arr T) (i : list Z) (v : T),
  properArray a -> inRange (a_ext a) i ->
  exists a', write checked a i v = Ok a' /\ properArray a' /\ a_ext a' = a_ext a /\ read checked a' i = Ok v /\
    forall j, inRange (a_ext a) j -> j <> i -> (exists w, read checked a j = Ok w) /\ read checked a' j = read checked a j.
Proof.
  intros T c a i v Ha Hi. destruct (write_ok c v Ha Hi) as (d & W & _). exists (Arr (a_ext a) d). split; [exact W|].
  destruct (write_proper c v Ha Hi W) as (Hp & Ep). split; [exact Hp|]. split; [exact Ep|].
  split; [apply (write_read c v Ha Hi W Hi); reflexivity|].
  intros j Hj Hji. split; [destruct (read_ok c Ha Hj) as (w & R & _); eauto|]. now apply (write_read c v Ha Hi W Hj).
Qed.
Theorem array_checked_access : forall (T : Type) (a : arr T) (i : list Z) (v : T),
  properArray a -> length i = length (a_ext a) -> Forall (fun k => 0 <= k) i -> ~ inRange (a_ext a) i ->
  read true a i = Throws /\ write true a i v = Throws.
Proof.
  intros T a i v Ha Hl Hn Hi.
  assert (E : indicesOk (a_ext a) i = false).
  { destruct (indicesOk (a_ext a) i) eqn:E; [|reflexivity]. exfalso. apply Hi. clear - E Hn Hl.
    revert i Hl Hn E. induction (a_ext a) as [|n e IH]; intros [|k i] Hl Hn E; cbn in *; try discriminate; [constructor|].
    apply andb_prop in E. destruct E as (E1 & E2). apply negb_true_iff, Z.leb_gt in E1. inversion Hn; subst.
    constructor; [lia|]. apply IH; auto. }
  unfold read, write, position. rewrite E. split; reflexivity.
Qed.
(** C43 (c): a slice is a window on the array: the elements seen through it are those of the array *)
Theorem array_slice_aliases : forall (T : Type) (checked : bool) (a a' : arr T) (fixed i : list Z) (v : T),
  properArray a -> inRange (a_ext a) (i ++ fixed) -> sliceWrite checked a fixed i v = Ok a' ->
  read checked a' (i ++ fixed) = Ok v /\ sliceRead checked a' fixed i = Ok v /\
  forall j, inRange (a_ext a) j -> j <> i ++ fixed -> read checked a' j = read checked a j.
Proof.
  intros T c a a' fx i v Ha Hi W. unfold sliceWrite, sliceRead in *.
  assert (R : read c a' (i ++ fx) = Ok v) by (apply (write_read c v Ha Hi W Hi); reflexivity).
  split; [exact R|]. split; [exact R|]. intros j Hj Hji. now apply (write_read c v Ha Hi W Hj).
Qed.
(** C44: += of an array of the same extents, and *= *)
Theorem array_plus_equal_extents : forall (K : star_ring) (checked : bool) (a b : arr K),
  properArray a -> properArray b -> a_ext a = a_ext b ->
  exists a', plusEq checked a b = Ok a' /\ a_ext a' = a_ext a /\
    forall i, inRange (a_ext a) i -> exists x y, read checked a i = Ok x /\ read checked b i = Ok y /\ read checked a' i = Ok (add x y).
Proof.
  intros K c a b Ha Hb E.
  destruct (@addLoop_ok K c b Hb (tuples (a_ext a)) a Ha E (NoDup_tuples _) (fun i => proj1 (in_tuples _ i))) as (a' & L & _ & Ea & R).
  exists a'. split; [exact L|]. split; [exact Ea|]. intros i Hi. destruct (R i Hi) as (x & y & Rx & Ry & Ra). exists x, y.
  split; [exact Rx|]. split; [exact Ry|]. rewrite Ra. destruct (in_dec _ i (tuples (a_ext a))) as [|n]; [reflexivity|].
  exfalso. apply n. now apply in_tuples.
Qed.
Theorem array_times_scalar : forall (K : star_ring) (checked : bool) (a : arr K) (s : K), properArray a ->
  exists a', timesEq checked a s = Ok a' /\ a_ext a' = a_ext a /\
    forall i, inRange (a_ext a) i -> exists x, read checked a i = Ok x /\ read checked a' i = Ok (mul x s).
Proof.
  intros K c a s Ha.
  destruct (@scaleLoop_ok K c s (tuples (a_ext a)) a Ha (NoDup_tuples _) (fun i => proj1 (in_tuples _ i))) as (a' & L & _ & Ea & R).
  exists a'. split; [exact L|]. split; [exact Ea|]. intros i Hi. destruct (R i Hi) as (x & Rx & Ra). exists x.
  split; [exact Rx|]. rewrite Ra. destruct (in_dec _ i (tuples (a_ext a))) as [|n]; [reflexivity|].
  exfalso. apply n. now apply in_tuples.
Qed.
(** C80, full claim: += with an array of other extents is rejected and changes nothing.
    Refuted: the exception object is constructed and not thrown; a 1x1 array accepts a 2x2 one
    even with bounds checks on.  Partial: with bounds checks, an array larger in some
    direction than the other one, and with at least one element there, is rejected. *)
Theorem array_plus_other_extents_refuted :
  ~ (forall checked (a b : arr Zsr), properArray a -> properArray b -> length (a_ext a) = length (a_ext b) -> a_ext a <> a_ext b ->
       plusEq checked a b = Throws).
Proof.
  intros H.
  assert (P1 : properArray (Arr [1; 1] [5] : arr Zsr)) by (repeat split; cbn; try lia; repeat constructor; lia).
  assert (P2 : properArray (Arr [2; 2] [1; 2; 3; 4] : arr Zsr)) by (repeat split; cbn; try lia; repeat constructor; lia).
  specialize (H true _ _ P1 P2 eq_refl ltac:(discriminate)). vm_compute in H. discriminate.
Qed.
Theorem array_plus_other_extents_partial : forall (K : star_ring) (a b : arr K),
  properArray a -> properArray b -> length (a_ext a) = length (a_ext b) ->
  (exists i, inRange (a_ext a) i /\ ~ inRange (a_ext b) i) -> plusEq true a b = Throws.
Proof.
  intros K a b Ha Hb Hlen (i & Hi & Hni). unfold plusEq.
  assert (G : forall is a0, properArray a0 -> a_ext a0 = a_ext a -> (forall k, In k is -> inRange (a_ext a) k) -> In i is ->
    addLoop true a0 b is = Throws).
  { induction is as [|k r IH]; intros a0 Ha0 Ea0 Hin Hmem; [destruct Hmem|]. cbn [addLoop].
    assert (Hk : inRange (a_ext a) k) by (apply Hin; now left).
    destruct (indicesOk (a_ext b) k) eqn:Ek.
    - assert (Hkb : inRange (a_ext b) k).
      { pose proof (inRange_length Hk) as L. rewrite Hlen in L.
        assert (Hn : Forall (fun x => 0 <= x) k) by (clear - Hk; induction Hk; constructor; auto; lia).
        clear - L Ek Hn. revert k L Ek Hn. induction (a_ext b) as [|n e IH]; intros [|x k] L Ek Hn; try discriminate; [constructor|].
        cbn in Ek. apply andb_prop in Ek. destruct Ek as (E1 & E2). apply negb_true_iff, Z.leb_gt in E1. inversion Hn; subst.
        constructor; [lia|]. apply IH; auto. }
      destruct (read_ok true Hb Hkb) as (y & Ry & _). rewrite Ry. cbn [bind].
      assert (Hk0 : inRange (a_ext a0) k) by congruence.
      destruct (read_ok true Ha0 Hk0) as (x & Rx & _). rewrite Rx. cbn [bind].
      destruct (write_ok true (add x y) Ha0 Hk0) as (d & W & _). rewrite W. cbn [bind].
      destruct (write_proper true _ Ha0 Hk0 W) as (Hp & Ep).
      apply IH; [exact Hp|cbn; congruence|intros; apply Hin; now right|].
      destruct Hmem as [->|]; [contradiction|assumption].
    - unfold read at 1, position. rewrite Ek. reflexivity. }
  apply G; auto; [intros k; apply in_tuples|now apply in_tuples].
Qed.

(** C81: storage management.  Any program that uses arrays as the interface allows never frees
    a block twice, never frees a client's memory, never touches freed memory; at its end every
    existing array has live storage for its whole extent, two arrays never own the same
    block, and when no array is left all memory the arrays allocated has been returned. *)
Theorem array_storage_safe : forall l, clientProgram (Mem [] []) l ->
  exists m, arun (Mem [] []) l = Ok m /\
  (forall i a, nth_error (objs m) i = Some (Some a) -> 0 < product (h_ext a) ->
     exists p b, h_ptr a = Some p /\ nth_error (heap m) p = Some b /\ b_live b = true /\ product (h_ext a) <= b_size b) /\
  (forall i j a b p, nth_error (objs m) i = Some (Some a) -> nth_error (objs m) j = Some (Some b) ->
     h_ptr a = Some p -> h_ptr b = Some p -> h_owns a = true -> i = j) /\
  (forall p b, nth_error (heap m) p = Some b -> b_client b = true -> b_live b = true) /\
  ((forall i a, nth_error (objs m) i <> Some (Some a)) ->
     forall p b, nth_error (heap m) p = Some b -> b_client b = false -> b_live b = false).
Proof.
  intros l Hc. destruct (arun_ok l Inv_empty Hc) as (m & E & (I1 & I2 & I3 & I4)). exists m. split; [exact E|].
  split; [|split; [|split]].
  - intros i a Hi Hp. destruct (I1 i a Hi) as (_ & _ & [(_ & p & Hptr & Hb)|(_ & [(_ & Hz)|(p & n & Hptr & Hb & Hn)])]).
    + exists p. eexists. split; [exact Hptr|]. split; [exact Hb|]. cbn. split; [reflexivity|lia].
    + lia.
    + exists p. eexists. split; [exact Hptr|]. split; [exact Hb|]. cbn. split; [reflexivity|lia].
  - intros i j a b p Hi Hj Ha Hb Ho. apply (I2 i j a b p); auto; [split; auto|]. split; [|exact Hb].
    destruct (I1 i a Hi) as (_ & _ & [(_ & q & Hq & Hqb)|(Ho' & _)]); [|congruence].
    destruct (I1 j b Hj) as (_ & _ & [(Hob & _)|(_ & [(Hz & _)|(q' & n & Hq' & Hqb' & _)])]); [exact Hob|congruence|congruence].
  - exact I4.
  - intros Hnone p b Hp Hcl. destruct (b_live b) eqn:L; [|reflexivity]. exfalso.
    destruct (I3 p (b_size b)) as (i & a & Hi & _); [rewrite Hp; destruct b; cbn in *; congruence|]. now apply Hnone in Hi.
Qed.

(** non-vacuity *)
Example array_index : let a := Arr [2; 3; 2] [0; 1; 2; 3; 4; 5; 6; 7; 8; 9; 10; 11] : arr Zsr in
  properArray a /\ inRange (a_ext a) [1; 2; 0] /\ read true a [1; 2; 0] = Ok 5 /\ read true a [1; 2; 1] = Ok 11 /\ read true a [2; 0; 0] = Throws.
Proof.
  cbv zeta. split; [repeat split; cbn; try lia; repeat constructor; lia|].
  split; [repeat constructor; lia|]. repeat split; vm_compute; reflexivity.
Qed.
Example array_sum : plusEq (K := Zsr) true (Arr [2; 2] [1; 2; 3; 4]) (Arr [2; 2] [10; 20; 30; 40]) = Ok (Arr [2; 2] [11; 22; 33; 44]) /\
  plusEq (K := Zsr) true (Arr [2; 2] [1; 2; 3; 4]) (Arr [1; 2] [10; 20]) = Throws.
Proof. split; vm_compute; reflexivity. Qed.
(** a program: own, client's and copied storage, resizing, assignment, destruction *)
Definition demo : list aop :=
  [ClientBlock 8; NewSized 2 [2; 3]; NewOn 3 [2; 2; 2] 0 true; NewDefault 3; Assign 2 1; NewCopy 0; SetSize 0 [4; 4]; SetSize 1 [1; 1; 1];
   Assign 3 0; Destroy 0; Destroy 1; Destroy 2; Destroy 3].
Example array_demo : clientProgram (Mem [] []) demo /\
  arun (Mem [] []) demo = Ok (Mem [Block 8 true true; Block 6 false false; Block 8 false false; Block 6 false false; Block 16 false false; Block 16 false false]
                                  [None; None; None; None]).
Proof.
  split; [|vm_compute; reflexivity]. unfold demo.
  assert (X : forall d e, length e = d -> forallb (fun n => (0 <=? n) && (n <? W64)) e = true -> (product e <? W64) = true -> extOk d e).
  { intros d e H1 H2 H3. split; [exact H1|]. split; [|now apply Z.ltb_lt]. apply Forall_forall. intros n Hn.
    rewrite forallb_forall in H2. specialize (H2 n Hn). apply andb_prop in H2. rewrite Z.leb_le, Z.ltb_lt in H2. exact H2. }
  assert (C : forall m o l m', clientOk m o -> astep m o = Ok m' -> clientProgram m' l -> clientProgram m (o :: l))
    by (intros m o l m' H1 H2 H3; cbn [clientProgram]; rewrite H2; auto).
  assert (T : forall m o l, clientOk m o -> astep m o = Throws -> clientProgram m l -> clientProgram m (o :: l))
    by (intros m o l H1 H2 H3; cbn [clientProgram]; rewrite H2; auto).
  eapply C; [cbn [clientOk]; lia|vm_compute; reflexivity|].
  eapply C; [split; [now left|apply X; vm_compute; reflexivity]|vm_compute; reflexivity|].
  eapply C; [split; [right; now left|split; [apply X; vm_compute; reflexivity|]]; eexists; split; [reflexivity|]; split; [reflexivity|]; vm_compute; congruence|vm_compute; reflexivity|].
  eapply C; [right; now left|vm_compute; reflexivity|].
  eapply C; [eexists _, _; split; [reflexivity|]; split; reflexivity|vm_compute; reflexivity|].
  eapply C; [eexists; reflexivity|vm_compute; reflexivity|].
  eapply C; [eexists; split; [reflexivity|apply X; vm_compute; reflexivity]|vm_compute; reflexivity|].
  eapply T; [eexists; split; [reflexivity|apply X; vm_compute; reflexivity]|vm_compute; reflexivity|].
  eapply C; [eexists _, _; split; [reflexivity|]; split; reflexivity|vm_compute; reflexivity|].
  do 4 (eapply C; [eexists; reflexivity|vm_compute; reflexivity|]). exact I.
Qed.

Print Assumptions array_addressing.
Print Assumptions array_assignment.
Print Assumptions array_checked_access.
Print Assumptions array_slice_aliases.
Print Assumptions array_plus_equal_extents.
Print Assumptions array_times_scalar.
Print Assumptions array_plus_other_extents_refuted.
Print Assumptions array_plus_other_extents_partial.
Print Assumptions array_storage_safe.
