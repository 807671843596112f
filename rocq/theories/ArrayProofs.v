From Coq Require Import ZArith.
From Verif Require Import Base ArrayModel ArraySpec.
Set Implicit Arguments.
Local Open Scope Z_scope.

Lemma W64_pos : 0 < W64. Proof. reflexivity. Qed.
Lemma inRange_cons e0 e i0 i : inRange (e0 :: e) (i0 :: i) <-> (0 <= i0 < e0) /\ inRange e i.
Proof. split; intros H; [inversion H; subst; auto | destruct H; constructor; auto]. Qed.
Lemma inRange_length e i : inRange e i -> length e = length i.
Proof. induction 1; cbn; congruence. Qed.
Lemma product_nonneg e : Forall (fun n => 0 <= n) e -> 0 <= product e.
Proof. induction 1; cbn [product fold_right]; [lia|]. fold (product l). nia. Qed.
Lemma inRange_nonneg e i : inRange e i -> Forall (fun n => 0 <= n) e.
Proof. induction 1; constructor; auto; lia. Qed.
Lemma columnMajor_bounds e i : inRange e i -> 0 <= columnMajor e i < product e.
Proof.
  induction 1 as [|n k e i Hk Hi IH]; cbn [columnMajor product fold_right]; [lia|].
  fold (product e). split; [nia|].
  assert (k + n * columnMajor e i < n * (1 + columnMajor e i)) by lia. nia.
Qed.
Lemma columnMajor_inj e i j : inRange e i -> inRange e j -> columnMajor e i = columnMajor e j -> i = j.
Proof.
  intros Hi. revert j. induction Hi as [|n k e i Hk Hi IH]; intros j Hj E; inversion Hj; subst; [reflexivity|].
  cbn [columnMajor] in E. rename y into k'.
  assert (columnMajor e i = columnMajor e l').
  { rewrite (Z.add_comm k), (Z.add_comm k') in E. 
    assert (E2 : (n * columnMajor e i + k) / n = (n * columnMajor e l' + k') / n) by congruence.
    rewrite (Z.mul_comm n), Z.div_add_l, Z.div_small in E2 by lia.
    rewrite (Z.mul_comm n), Z.div_add_l, (Z.div_small k') in E2 by lia. lia. }
  f_equal; [nia|]. apply IH; auto.
Qed.
Lemma columnMajor_onto e o : Forall (fun n => 0 <= n) e -> 0 <= o < product e ->
  exists i, inRange e i /\ columnMajor e i = o.
Proof.
  intros He. revert o. induction He as [|n e Hn He IH]; intros o Ho; cbn [product fold_right] in Ho.
  - exists []. split; [constructor|]. cbn. lia.
  - fold (product e) in Ho.
    assert (Hn' : 0 < n) by (destruct (Z.eq_dec n 0); [subst; lia|lia]).
    pose proof (Z.div_mod o n ltac:(lia)) as D. pose proof (Z.mod_pos_bound o n Hn') as M.
    destruct (IH (o / n)) as (i & Hi & Ei).
    + split; [apply Z.div_pos; lia|]. apply Z.div_lt_upper_bound; lia.
    + exists (o mod n :: i). split; [constructor; auto|]. cbn [columnMajor]. rewrite Ei. lia.
Qed.

Definition cg (a b : Z) := a mod W64 = b mod W64.
Lemma cg_refl a : cg a a. Proof. reflexivity. Qed.
Lemma cg_wadd a b a' b' : cg a a' -> cg b b' -> cg (wadd a b) (a' + b').
Proof.
  unfold cg, wadd. intros H1 H2. rewrite Z.mod_mod by discriminate.
  rewrite Z.add_mod, H1, H2, <- Z.add_mod by discriminate. reflexivity.
Qed.
Lemma cg_wmul a b a' b' : cg a a' -> cg b b' -> cg (wmul a b) (a' * b').
Proof.
  unfold cg, wmul. intros H1 H2. rewrite Z.mod_mod by discriminate.
  rewrite Z.mul_mod, H1, H2, <- Z.mul_mod by discriminate. reflexivity.
Qed.
Lemma wadd_range a b : 0 <= wadd a b < W64. Proof. apply Z.mod_pos_bound, W64_pos. Qed.
Lemma cg_small a b : 0 <= a < W64 -> 0 <= b < W64 -> cg a b -> a = b.
Proof. unfold cg. intros Ha Hb E. rewrite !Z.mod_small in E by assumption. exact E. Qed.
Lemma offset_columnMajor e i : inRange e i -> (2 <= length e <= 4)%nat -> product e < W64 ->
  offset e i = Some (columnMajor e i).
Proof.
  intros Hi Hl Hp. pose proof (columnMajor_bounds Hi) as Hb.
  assert (Hm : 0 <= columnMajor e i < W64) by lia. clear Hb Hp.
  inversion Hi as [|e0 i0 e1 i1 _ H1]; subst; [cbn in Hl; lia|].
  inversion H1 as [|e2 i2 e3 i3 _ H2]; subst; [cbn in Hl; lia|].
  inversion H2 as [|e4 i4 e5 i5 _ H3]; subst.
  { cbn [offset]. f_equal. apply cg_small; [apply wadd_range|exact Hm|]. cbn [columnMajor].
    replace (i0 + e0 * (i2 + e2 * 0)) with (i0 + e0 * i2) by ring.
    repeat (apply cg_wadd || apply cg_wmul || apply cg_refl). }
  inversion H3 as [|e6 i6 e7 i7 _ H4]; subst.
  { cbn [offset]. f_equal. apply cg_small; [apply wadd_range|exact Hm|]. cbn [columnMajor].
    replace (i0 + e0 * (i2 + e2 * (i4 + e4 * 0))) with (i0 + e0 * i2 + (e0 * e2) * i4) by ring.
    repeat (apply cg_wadd || apply cg_wmul || apply cg_refl). }
  inversion H4; subst; [|cbn in Hl; lia].
  cbn [offset]. f_equal. apply cg_small; [apply wadd_range|exact Hm|]. cbn [columnMajor].
  replace (i0 + e0 * (i2 + e2 * (i4 + e4 * (i6 + e6 * 0)))) with (i0 + e0 * i2 + (e0 * e2) * i4 + e0 * e2 * e4 * i6) by ring.
  repeat (apply cg_wadd || apply cg_wmul || apply cg_refl).
Qed.

Lemma indicesOk_inRange e i : inRange e i -> indicesOk e i = true.
Proof. induction 1; cbn [indicesOk]; [reflexivity|]. rewrite IHForall2, andb_true_r. apply negb_true_iff, Z.leb_gt. lia. Qed.
Lemma position_ok T c (a : arr T) i : properArray a -> inRange (a_ext a) i ->
  position c a i = Ok (Z.to_nat (columnMajor (a_ext a) i)) /\ (Z.to_nat (columnMajor (a_ext a) i) < length (a_data a))%nat.
Proof.
  intros (Hl & Hn & Hp & Hd) Hi. pose proof (columnMajor_bounds Hi) as Hb.
  unfold position. rewrite (indicesOk_inRange Hi), andb_false_r, (offset_columnMajor Hi Hl Hp).
  destruct (Z.leb_spec (Z.of_nat (length (a_data a))) (columnMajor (a_ext a) i)); [lia|]. split; [reflexivity|lia].
Qed.
Lemma position_inj e i j : inRange e i -> inRange e j -> Z.to_nat (columnMajor e i) = Z.to_nat (columnMajor e j) -> i = j.
Proof. intros Hi Hj E. pose proof (columnMajor_bounds Hi). pose proof (columnMajor_bounds Hj). apply (columnMajor_inj Hi Hj). lia. Qed.
Lemma read_ok T c (a : arr T) i : properArray a -> inRange (a_ext a) i ->
  exists v, read c a i = Ok v /\ nth_error (a_data a) (Z.to_nat (columnMajor (a_ext a) i)) = Some v.
Proof.
  intros Ha Hi. destruct (position_ok c Ha Hi) as (E & L). unfold read. rewrite E. cbn [bind].
  destruct (nth_error (a_data a) _) eqn:N; [eauto|]. apply nth_error_None in N. lia.
Qed.
Lemma write_ok T c (a : arr T) i v : properArray a -> inRange (a_ext a) i ->
  exists d, write c a i v = Ok (Arr (a_ext a) d) /\ upd (a_data a) (Z.to_nat (columnMajor (a_ext a) i)) v = Some d.
Proof.
  intros Ha Hi. destruct (position_ok c Ha Hi) as (E & L). unfold write. rewrite E. cbn [bind].
  destruct (upd_Some _ v L) as (d & D). rewrite D. eauto.
Qed.
Lemma write_proper T c (a a' : arr T) i v : properArray a -> inRange (a_ext a) i -> write c a i v = Ok a' ->
  properArray a' /\ a_ext a' = a_ext a.
Proof.
  intros Ha Hi E. destruct (write_ok c v Ha Hi) as (d & E' & D). rewrite E' in E. inversion E; subst. split; [|reflexivity].
  destruct Ha as (Hl & Hn & Hp & Hd). split; [|split; [|split]]; auto. cbn [a_data a_ext]. rewrite (upd_length _ _ _ D). exact Hd.
Qed.
Lemma write_read T c (a a' : arr T) i v : properArray a -> inRange (a_ext a) i -> write c a i v = Ok a' ->
  forall j, inRange (a_ext a) j ->
    (j = i -> read c a' j = Ok v) /\ (j <> i -> read c a' j = read c a j).
Proof.
  intros Ha Hi E j Hj. destruct (write_proper c v Ha Hi E) as (Ha' & Ex).
  destruct (write_ok c v Ha Hi) as (d & E' & D). rewrite E' in E. inversion E; subst. clear E. cbn [a_ext] in *.
  destruct (read_ok c Ha' Hj) as (w & Rw & Nw). destruct (read_ok c Ha Hj) as (u & Ru & Nu).
  cbn [a_data a_ext] in *. rewrite (upd_nth_error _ _ _ _ D) in Nw.
  split; intros H.
  - subst j. rewrite Nat.eqb_refl in Nw. rewrite Rw. congruence.
  - destruct (Nat.eqb_spec (Z.to_nat (columnMajor (a_ext a) j)) (Z.to_nat (columnMajor (a_ext a) i))) as [Eq|];
      [now apply (position_inj Hj Hi) in Eq|]. rewrite Rw, Ru. congruence.
Qed.

Lemma in_zseq n k : In k (zseq n) <-> 0 <= k < n.
Proof.
  unfold zseq. rewrite in_map_iff. split.
  - intros (x & <- & H). apply in_seq in H. lia.
  - intros H. exists (Z.to_nat k). split; [lia|]. apply in_seq. lia.
Qed.
Lemma NoDup_zseq n : NoDup (zseq n).
Proof. apply FinFun.Injective_map_NoDup; [intros x y; lia|apply seq_NoDup]. Qed.
Lemma in_tuples e i : In i (tuples e) <-> inRange e i.
Proof.
  revert i. induction e as [|n e IH]; intros i; cbn [tuples].
  - split; [intros [<-|[]]; constructor | intros H; inversion H; now left].
  - rewrite in_flat_map. split.
    + intros (t & Ht & Hi). apply in_map_iff in Hi. destruct Hi as (k & <- & Hk).
      constructor; [now apply in_zseq|now apply IH].
    + intros H. inversion H; subst. exists l'. split; [now apply IH|]. apply in_map_iff. exists y. split; [reflexivity|now apply in_zseq].
Qed.
Lemma NoDup_flat_map A B (f : A -> list B) (l : list A) : NoDup l -> (forall a, In a l -> NoDup (f a)) ->
  (forall a b x, In a l -> In b l -> In x (f a) -> In x (f b) -> a = b) -> NoDup (flat_map f l).
Proof.
  induction l as [|a l IH]; intros Hn Hf Hd; cbn [flat_map]; [constructor|].
  inversion Hn; subst. apply NoDup_app; [apply Hf; now left| |].
  - apply IH; auto; [intros; apply Hf; now right | intros; eapply Hd; eauto; now right].
  - intros x Hx Hy. apply in_flat_map in Hy. destruct Hy as (b & Hb & Hxb).
    assert (a = b) by (eapply Hd; eauto; [now left|now right]). subst. contradiction.
Qed.
Lemma NoDup_tuples e : NoDup (tuples e).
Proof.
  induction e as [|n e IH]; cbn [tuples]; [repeat constructor; auto|].
  apply NoDup_flat_map; auto.
  - intros t _. apply FinFun.Injective_map_NoDup; [intros x y E; congruence|apply NoDup_zseq].
  - intros a b x _ _ Ha Hb. apply in_map_iff in Ha, Hb. destruct Ha as (k & <- & _), Hb as (k' & E & _). congruence.
Qed.

Lemma addLoop_ok (K : star_ring) c (b : arr K) : properArray b -> forall is a, properArray a -> a_ext a = a_ext b -> NoDup is ->
  (forall i, In i is -> inRange (a_ext a) i) ->
  exists a', addLoop c a b is = Ok a' /\ properArray a' /\ a_ext a' = a_ext a /\
    forall i, inRange (a_ext a) i -> exists x y, read c a i = Ok x /\ read c b i = Ok y /\
      read c a' i = Ok (if in_dec (list_eq_dec Z.eq_dec) i is then add x y else x).
Proof.
  intros Hb is. induction is as [|i r IH]; intros a Ha Ex Hn Hin; cbn [addLoop].
  - exists a. split; [reflexivity|]. split; [assumption|]. split; [reflexivity|].
    intros i Hi. destruct (read_ok c Ha Hi) as (x & Rx & _).
    assert (Hib : inRange (a_ext b) i) by congruence.
    destruct (read_ok c Hb Hib) as (y & Ry & _). exists x, y. auto.
  - inversion Hn as [|? ? Hni Hnr]; subst.
    assert (Hi : inRange (a_ext a) i) by (apply Hin; now left).
    assert (Hib : inRange (a_ext b) i) by congruence.
    destruct (read_ok c Ha Hi) as (x & Rx & _). destruct (read_ok c Hb Hib) as (y & Ry & _).
    rewrite Ry. cbn [bind]. rewrite Rx. cbn [bind].
    destruct (write_ok c (add x y) Ha Hi) as (d & W & _). rewrite W. cbn [bind].
    destruct (write_proper c _ Ha Hi W) as (Hp & Ep).
    destruct (IH (Arr (a_ext a) d)) as (a' & L & Pa' & Ea' & Ha'); auto.
    { intros k Hk. apply Hin. now right. }
    exists a'. split; [exact L|]. split; [assumption|]. split; [exact Ea'|].
    intros k Hk. destruct (Ha' k Hk) as (x' & y' & Rx' & Ry' & Ra').
    destruct (write_read c _ Ha Hi W Hk) as (W1 & W2).
    destruct (in_dec (list_eq_dec Z.eq_dec) k (i :: r)) as [[->|Hkr]|Hk'].
    + rewrite (W1 eq_refl) in Rx'. inversion Rx'; subst x'.
      destruct (in_dec (list_eq_dec Z.eq_dec) k r); [contradiction|]. exists x, y. auto.
    + assert (k <> i) by (intros ->; contradiction). rewrite (W2 H) in Rx'.
      destruct (in_dec (list_eq_dec Z.eq_dec) k r); [|contradiction]. exists x', y'. auto.
    + assert (k <> i) by (intros ->; apply Hk'; now left). rewrite (W2 H) in Rx'.
      destruct (in_dec (list_eq_dec Z.eq_dec) k r); [exfalso; apply Hk'; now right|]. exists x', y'. auto.
Qed.
Lemma scaleLoop_ok (K : star_ring) c (s : K) : forall is a, properArray a -> NoDup is ->
  (forall i, In i is -> inRange (a_ext a) i) ->
  exists a', scaleLoop c a s is = Ok a' /\ properArray a' /\ a_ext a' = a_ext a /\
    forall i, inRange (a_ext a) i -> exists x, read c a i = Ok x /\
      read c a' i = Ok (if in_dec (list_eq_dec Z.eq_dec) i is then mul x s else x).
Proof.
  intros is. induction is as [|i r IH]; intros a Ha Hn Hin; cbn [scaleLoop].
  - exists a. split; [reflexivity|]. split; [assumption|]. split; [reflexivity|].
    intros i Hi. destruct (read_ok c Ha Hi) as (x & Rx & _). exists x. auto.
  - inversion Hn as [|? ? Hni Hnr]; subst.
    assert (Hi : inRange (a_ext a) i) by (apply Hin; now left).
    destruct (read_ok c Ha Hi) as (x & Rx & _). rewrite Rx. cbn [bind].
    destruct (write_ok c (mul x s) Ha Hi) as (d & W & _). rewrite W. cbn [bind].
    destruct (write_proper c _ Ha Hi W) as (Hp & Ep).
    destruct (IH (Arr (a_ext a) d)) as (a' & L & Pa' & Ea' & Ha'); auto.
    { intros k Hk. apply Hin. now right. }
    exists a'. split; [exact L|]. split; [assumption|]. split; [exact Ea'|].
    intros k Hk. destruct (Ha' k Hk) as (x' & Rx' & Ra').
    destruct (write_read c _ Ha Hi W Hk) as (W1 & W2).
    destruct (in_dec (list_eq_dec Z.eq_dec) k (i :: r)) as [[->|Hkr]|Hk'].
    + rewrite (W1 eq_refl) in Rx'. inversion Rx'; subst x'.
      destruct (in_dec (list_eq_dec Z.eq_dec) k r); [contradiction|]. exists x. auto.
    + assert (k <> i) by (intros ->; contradiction). rewrite (W2 H) in Rx'.
      destruct (in_dec (list_eq_dec Z.eq_dec) k r); [|contradiction]. exists x'. auto.
    + assert (k <> i) by (intros ->; apply Hk'; now left). rewrite (W2 H) in Rx'.
      destruct (in_dec (list_eq_dec Z.eq_dec) k r); [exfalso; apply Hk'; now right|]. exists x'. auto.
Qed.

(** ---- storage ---- *)
Lemma fold_wmul e : forall a, 0 <= a < W64 -> fold_left wmul e a = (a * product e) mod W64.
Proof.
  induction e as [|n e IH]; intros a Ha; cbn [fold_left product fold_right].
  - rewrite Z.mul_1_r, Z.mod_small; auto.
  - fold (product e). rewrite IH by (apply Z.mod_pos_bound, W64_pos).
    unfold wmul. rewrite Zmult_mod_idemp_l. f_equal. ring.
Qed.
Lemma extOk_nonneg d e : extOk d e -> 0 <= product e.
Proof. intros (_ & H & _). apply product_nonneg. eapply Forall_impl; [|exact H]. cbn. intros; lia. Qed.
Lemma total_product d e : extOk d e -> total e = product e.
Proof.
  intros H. pose proof (extOk_nonneg H). unfold total. rewrite fold_wmul by (vm_compute; split; congruence).
  rewrite Z.mul_1_l, Z.mod_small; auto. destruct H as (_ & _ & H). lia.
Qed.
Lemma extOk_zero d e : length e = d -> extOk d (map (fun _ => 0) e) /\ (d <> 0%nat -> product (map (fun _ : Z => 0) e) = 0).
Proof.
  intros <-. split; [|intros H; destruct e; [now cbn in H|cbn; reflexivity]].
  split; [now rewrite map_length|]. split; [apply Forall_map, Forall_forall; intros; vm_compute; split; congruence|].
  destruct e; cbn; reflexivity.
Qed.
Lemma repeat_map d : repeat 0 d = map (fun _ => 0) (repeat 0 d).
Proof. induction d; cbn; congruence. Qed.

Definition owns_ (a : hdr) (p : nat) : Prop := h_owns a = true /\ h_ptr a = Some p.
Definition hdrOk (h : list block) (a : hdr) : Prop :=
  dimOk (h_dim a) /\ extOk (h_dim a) (h_ext a) /\
  ((h_owns a = true /\ exists p, h_ptr a = Some p /\ nth_error h p = Some (Block (product (h_ext a)) false true)) \/
   (h_owns a = false /\ ((h_ptr a = None /\ product (h_ext a) = 0) \/
     exists p n, h_ptr a = Some p /\ nth_error h p = Some (Block n true true) /\ product (h_ext a) <= n))).
Definition Inv (m : mem) : Prop :=
  (forall i a, nth_error (objs m) i = Some (Some a) -> hdrOk (heap m) a) /\
  (forall i j a b p, nth_error (objs m) i = Some (Some a) -> nth_error (objs m) j = Some (Some b) -> owns_ a p -> owns_ b p -> i = j) /\
  (forall p n, nth_error (heap m) p = Some (Block n false true) -> exists i a, nth_error (objs m) i = Some (Some a) /\ owns_ a p) /\
  (forall p b, nth_error (heap m) p = Some b -> b_client b = true -> b_live b = true).

Lemma getObj_eq m i a : nth_error (objs m) i = Some (Some a) -> getObj m i = Some a.
Proof. unfold getObj. now intros ->. Qed.
Lemma nth_snoc A (l : list A) x i : nth_error (l ++ [x]) i = if (i =? length l)%nat then Some x else nth_error l i.
Proof.
  destruct (Nat.eqb_spec i (length l)) as [->|H].
  - rewrite nth_error_app2, Nat.sub_diag; auto.
  - destruct (Nat.lt_ge_cases i (length l)); [now rewrite nth_error_app1|].
    rewrite nth_error_app2 by lia. destruct (i - length l)%nat eqn:E; [lia|]. cbn. rewrite (proj2 (nth_error_None l i)) by lia.
    now destruct n.
Qed.
Lemma nth_lt A (l : list A) i x : nth_error l i = Some x -> (i < length l)%nat.
Proof. intros H. apply nth_error_Some. congruence. Qed.

(** the three elementary changes of the state *)
(* a heap extended by blocks keeps headers fine *)
Lemma hdrOk_ext h x a : hdrOk h a -> hdrOk (h ++ [x]) a.
Proof.
  intros (Hd & He & H). split; [exact Hd|]. split; [exact He|].
  assert (N : forall p b, nth_error h p = Some b -> nth_error (h ++ [x]) p = Some b).
  { intros p b Hp. rewrite nth_error_app1; [exact Hp|]. now apply nth_lt in Hp. }
  destruct H as [(Ho & p & Hp & Hb)|(Ho & [H|(p & n & Hp & Hb & Hn)])]; [left; eauto 6 | right; eauto | right; split; eauto 8].
Qed.
(* add an object which owns nothing *)
Lemma Inv_new m a : Inv m -> hdrOk (heap m) a -> h_owns a = false -> Inv (Mem (heap m) (objs m ++ [Some a])).
Proof.
  intros (I1 & I2 & I3 & I4) Ha Ho. (split; [|split; [|split]]); cbn [heap objs].
  - intros i b Hi. rewrite nth_snoc in Hi. destruct (i =? length (objs m))%nat; [inversion Hi; subst; exact Ha|eauto].
  - intros i j x y p Hi Hj Hx Hy. rewrite nth_snoc in Hi, Hj.
    destruct (Nat.eqb_spec i (length (objs m))) as [->|]; [inversion Hi; subst; destruct Hx; congruence|].
    destruct (Nat.eqb_spec j (length (objs m))) as [->|]; [inversion Hj; subst; destruct Hy; congruence|]. eauto.
  - intros p n Hp. destruct (I3 p n Hp) as (i & b & Hi & Hb). exists i, b. split; [|exact Hb].
    rewrite nth_error_app1; [exact Hi|now apply nth_lt in Hi].
  - exact I4.
Qed.
(* add an object with a fresh block *)
Lemma Inv_newOwned m d e : Inv m -> dimOk d -> extOk d e ->
  Inv (Mem (heap m ++ [Block (total e) false true]) (objs m ++ [Some (Hdr d e (Some (length (heap m))) true false)])).
Proof.
  intros (I1 & I2 & I3 & I4) Hd He. rewrite (total_product He). (split; [|split; [|split]]); cbn [heap objs].
  - intros i b Hi. rewrite nth_snoc in Hi. destruct (i =? length (objs m))%nat; [inversion Hi; subst|apply hdrOk_ext; eauto].
    split; [exact Hd|]. split; [exact He|]. left. split; [reflexivity|]. exists (length (heap m)). split; [reflexivity|].
    rewrite nth_snoc, Nat.eqb_refl. reflexivity.
  - assert (F : forall i b p, nth_error (objs m) i = Some (Some b) -> owns_ b p -> (p < length (heap m))%nat).
    { intros i b p Hi (Ho & Hp). destruct (I1 i b Hi) as (_ & _ & [(_ & q & Hq & Hb)|(Ho' & _)]); [|congruence].
      apply nth_lt in Hb. congruence. }
    intros i j x y p Hi Hj Hx Hy. rewrite nth_snoc in Hi, Hj.
    destruct (Nat.eqb_spec i (length (objs m))) as [->|]; destruct (Nat.eqb_spec j (length (objs m))) as [->|]; auto.
    + inversion Hi; subst. destruct Hx as (_ & Hx). cbn in Hx. inversion Hx; subst. pose proof (F _ _ _ Hj Hy). lia.
    + inversion Hj; subst. destruct Hy as (_ & Hy). cbn in Hy. inversion Hy; subst. pose proof (F _ _ _ Hi Hx). lia.
    + eauto.
  - intros p n Hp. rewrite nth_snoc in Hp. destruct (Nat.eqb_spec p (length (heap m))) as [->|].
    + eexists (length (objs m)), _. split; [rewrite nth_snoc, Nat.eqb_refl; reflexivity|]. now split.
    + destruct (I3 p n Hp) as (i & b & Hi & Hb). exists i, b. split; [|exact Hb].
      rewrite nth_error_app1; [exact Hi|now apply nth_lt in Hi].
  - intros p b Hp Hc. rewrite nth_snoc in Hp. destruct (p =? length (heap m))%nat; [inversion Hp; subst; reflexivity|eauto].
Qed.
(* free the memory of an object and destroy it *)
Lemma Inv_destroy m i a : Inv m -> nth_error (objs m) i = Some (Some a) ->
  exists h o, free_memory (heap m) a = Ok h /\ upd (objs m) i None = Some o /\ Inv (Mem h o) /\
    (forall p, ~ owns_ a p -> nth_error h p = nth_error (heap m) p) /\ length h = length (heap m).
Proof.
  intros (I1 & I2 & I3 & I4) Hi. destruct (upd_Some (objs m) (@None hdr) (nth_lt _ _ Hi)) as (o & Ho).
  pose proof (fun k => upd_nth_error _ _ _ k Ho) as No. pose proof (I1 _ _ Hi) as (Hd & He & Hc).
  destruct Hc as [(Hown & p & Hp & Hb)|(Hown & Hc)].
  - destruct (upd_Some (heap m) (Block (product (h_ext a)) false false) (nth_lt _ _ Hb)) as (h & Hh).
    pose proof (fun k => upd_nth_error _ _ _ k Hh) as Nh.
    exists h, o. unfold free_memory, delete. rewrite Hown, Hp, Hb. cbn [b_client b_live b_size orb negb]. rewrite Hh.
    split; [reflexivity|]. split; [exact Ho|]. split.
    + (split; [|split; [|split]]); cbn [heap objs].
      * intros j b Hj. rewrite No in Hj. destruct (Nat.eqb_spec j i) as [->|Hji]; [discriminate|].
        destruct (I1 j b Hj) as (Hdb & Heb & Hcb). split; [exact Hdb|]. split; [exact Heb|].
        destruct Hcb as [(Hob & q & Hq & Hbq)|(Hob & [Hcb|(q & n & Hq & Hbq & Hn)])].
        -- left. split; [exact Hob|]. exists q. split; [exact Hq|]. rewrite Nh.
           destruct (Nat.eqb_spec q p) as [->|]; [exfalso; apply Hji, (I2 j i b a p); auto; split; auto|exact Hbq].
        -- right. split; [exact Hob|]. left. exact Hcb.
        -- right. split; [exact Hob|]. right. exists q, n. split; [exact Hq|]. split; [|exact Hn]. rewrite Nh.
           destruct (Nat.eqb_spec q p) as [->|]; [congruence|exact Hbq].
      * intros j k x y q Hj Hk. rewrite No in Hj, Hk. destruct (j =? i)%nat; [discriminate|]. destruct (k =? i)%nat; [discriminate|]. eauto.
      * intros q n Hq. rewrite Nh in Hq. destruct (Nat.eqb_spec q p) as [->|Hqp]; [discriminate|].
        destruct (I3 q n Hq) as (j & b & Hj & Hbo). exists j, b. split; [|exact Hbo]. rewrite No.
        destruct (Nat.eqb_spec j i) as [->|]; [|exact Hj]. exfalso. rewrite Hi in Hj. inversion Hj; subst. destruct Hbo; congruence.
      * intros q b Hq Hcl. rewrite Nh in Hq. destruct (Nat.eqb_spec q p) as [->|]; [inversion Hq; subst; discriminate|eauto].
    + split; [|eapply upd_length; eauto]. intros q Hq. rewrite Nh. destruct (Nat.eqb_spec q p) as [->|]; [exfalso; apply Hq; now split|reflexivity].
  - exists (heap m), o. unfold free_memory. rewrite Hown. split; [reflexivity|]. split; [exact Ho|]. split; [|split; auto].
    (split; [|split; [|split]]); cbn [heap objs].
    + intros j b Hj. rewrite No in Hj. destruct (j =? i)%nat; [discriminate|]. eauto.
    + intros j k x y q Hj Hk. rewrite No in Hj, Hk. destruct (j =? i)%nat; [discriminate|]. destruct (k =? i)%nat; [discriminate|]. eauto.
    + intros q n Hq. destruct (I3 q n Hq) as (j & b & Hj & Hbo). exists j, b. split; [|exact Hbo]. rewrite No.
      destruct (Nat.eqb_spec j i) as [->|]; [|exact Hj]. exfalso. rewrite Hi in Hj. inversion Hj; subst. destruct Hbo; congruence.
    + exact I4.
Qed.

Lemma Inv_put m o' i a : Inv m -> hdrOk (heap m) a -> h_owns a = false ->
  (forall b, nth_error (objs m) i <> Some (Some b)) ->
  (forall k, nth_error o' k = if (k =? i)%nat then Some (Some a) else nth_error (objs m) k) -> Inv (Mem (heap m) o').
Proof.
  intros (I1 & I2 & I3 & I4) Ha Ho Hf N. (split; [|split; [|split]]); cbn [heap objs].
  - intros j b Hj. rewrite N in Hj. destruct (j =? i)%nat; [inversion Hj; subst; exact Ha|eauto].
  - intros j k x y p Hj Hk Hx Hy. rewrite N in Hj, Hk.
    destruct (Nat.eqb_spec j i) as [->|]; [inversion Hj; subst; destruct Hx; congruence|].
    destruct (Nat.eqb_spec k i) as [->|]; [inversion Hk; subst; destruct Hy; congruence|]. eauto.
  - intros p n Hp. destruct (I3 p n Hp) as (j & b & Hj & Hb). exists j, b. split; [|exact Hb].
    rewrite N. destruct (Nat.eqb_spec j i) as [->|]; [now apply Hf in Hj|exact Hj].
  - exact I4.
Qed.
Lemma Inv_putOwned m o' i d e : Inv m -> dimOk d -> extOk d e ->
  (forall b, nth_error (objs m) i <> Some (Some b)) ->
  (forall k, nth_error o' k = if (k =? i)%nat then Some (Some (Hdr d e (Some (length (heap m))) true false)) else nth_error (objs m) k) ->
  Inv (Mem (heap m ++ [Block (total e) false true]) o').
Proof.
  intros (I1 & I2 & I3 & I4) Hd He Hf N. rewrite (total_product He). (split; [|split; [|split]]); cbn [heap objs].
  - intros j b Hj. rewrite N in Hj. destruct (j =? i)%nat; [inversion Hj; subst|apply hdrOk_ext; eauto].
    split; [exact Hd|]. split; [exact He|]. left. split; [reflexivity|]. exists (length (heap m)). split; [reflexivity|].
    rewrite nth_snoc, Nat.eqb_refl. reflexivity.
  - assert (F : forall i b p, nth_error (objs m) i = Some (Some b) -> owns_ b p -> (p < length (heap m))%nat).
    { intros j b p Hj (Ho & Hp). destruct (I1 j b Hj) as (_ & _ & [(_ & q & Hq & Hb)|(Ho' & _)]); [|congruence].
      apply nth_lt in Hb. congruence. }
    intros j k x y p Hj Hk Hx Hy. rewrite N in Hj, Hk.
    destruct (Nat.eqb_spec j i) as [->|]; destruct (Nat.eqb_spec k i) as [->|]; auto.
    + inversion Hj; subst. destruct Hx as (_ & Hx). cbn in Hx. inversion Hx; subst. pose proof (F _ _ _ Hk Hy). lia.
    + inversion Hk; subst. destruct Hy as (_ & Hy). cbn in Hy. inversion Hy; subst. pose proof (F _ _ _ Hj Hx). lia.
    + eauto.
  - intros p n Hp. rewrite nth_snoc in Hp. destruct (Nat.eqb_spec p (length (heap m))) as [->|].
    + eexists i, _. split; [rewrite N, Nat.eqb_refl; reflexivity|]. now split.
    + destruct (I3 p n Hp) as (j & b & Hj & Hb). exists j, b. split; [|exact Hb].
      rewrite N. destruct (Nat.eqb_spec j i) as [->|]; [now apply Hf in Hj|exact Hj].
  - intros p b Hp Hc. rewrite nth_snoc in Hp. destruct (p =? length (heap m))%nat; [inversion Hp; subst; reflexivity|eauto].
Qed.
(* same storage, other extents of the same product *)
Lemma Inv_reshape m o' i a e : Inv m -> nth_error (objs m) i = Some (Some a) -> extOk (h_dim a) e -> product e = product (h_ext a) ->
  (forall k, nth_error o' k = if (k =? i)%nat then Some (Some (Hdr (h_dim a) e (h_ptr a) (h_owns a) (h_strict a))) else nth_error (objs m) k) ->
  Inv (Mem (heap m) o').
Proof.
  intros (I1 & I2 & I3 & I4) Hi He Hp N.
  assert (Hs : forall k b, nth_error o' k = Some (Some b) -> exists c, nth_error (objs m) k = Some (Some c) /\ (forall p, owns_ b p <-> owns_ c p)).
  { intros k b Hk. rewrite N in Hk. destruct (Nat.eqb_spec k i) as [->|].
    - inversion Hk; subst. exists a. split; [exact Hi|]. intros p. reflexivity.
    - exists b. split; [exact Hk|]. reflexivity. }
  (split; [|split; [|split]]); cbn [heap objs].
  - intros j b Hj. rewrite N in Hj. destruct (j =? i)%nat; [inversion Hj; subst|eauto].
    destruct (I1 _ _ Hi) as (Hd & _ & Hc). split; [exact Hd|]. split; [exact He|]. cbn [h_ext h_owns h_ptr]. rewrite Hp. exact Hc.
  - intros j k x y p Hj Hk Hx Hy. destruct (Hs _ _ Hj) as (x' & Hj' & Hx'), (Hs _ _ Hk) as (y' & Hk' & Hy').
    eapply (I2 j k x' y' p); eauto; [now apply Hx'|now apply Hy'].
  - intros p n Hq. destruct (I3 p n Hq) as (j & b & Hj & Hb). destruct (Nat.eq_dec j i) as [->|Hji].
    + rewrite Hi in Hj. inversion Hj; subst. eexists i, _. split; [rewrite N, Nat.eqb_refl; reflexivity|]. exact Hb.
    + exists j, b. split; [|exact Hb]. rewrite N. destruct (Nat.eqb_spec j i); [contradiction|exact Hj].
  - exact I4.
Qed.

Lemma set_size_ok m i a e : Inv m -> nth_error (objs m) i = Some (Some a) -> extOk (h_dim a) e ->
  (set_size (heap m) a e = Throws) \/
  exists h a' o, set_size (heap m) a e = Ok (h, a') /\ upd (objs m) i (Some a') = Some o /\ Inv (Mem h o) /\
    h_dim a' = h_dim a /\ product (h_ext a') = product e /\ (product e <> 0 -> h_ext a' = e).
Proof.
  intros HI Hi He. pose proof (proj1 HI _ _ Hi) as (Hd & Hea & _).
  unfold set_size. rewrite (total_product He), (total_product Hea).
  assert (U : forall a', exists o, upd (objs m) i (Some a') = Some o) by (intros; apply upd_Some; eapply nth_lt; eauto).
  destruct (Z.eqb_spec (product e) (product (h_ext a))) as [Ep|Ep].
  { right. eexists (heap m), _. destruct (U (Hdr (h_dim a) e (h_ptr a) (h_owns a) (h_strict a))) as (o & Ho).
    exists o. split; [reflexivity|]. split; [exact Ho|].
    split; [apply (@Inv_reshape m o i a e HI Hi He Ep); intros k; exact (upd_nth_error _ _ _ k Ho)|]. cbn [h_dim h_ext]. auto. }
  destruct (Inv_destroy _ HI Hi) as (h & o0 & Hfree & Ho0 & HI0 & _ & _).
  assert (Hf : forall b, nth_error o0 i <> Some (Some b)) by (intros b; rewrite (upd_nth_error _ _ _ i Ho0), Nat.eqb_refl; discriminate).
  assert (N : forall a' o, upd (objs m) i (Some a') = Some o -> forall k, nth_error o k = if (k =? i)%nat then Some (Some a') else nth_error o0 k).
  { intros a' o Ho k. rewrite (upd_nth_error _ _ _ k Ho), (upd_nth_error _ _ _ k Ho0). now destruct (k =? i)%nat. }
  assert (New : forall d, d = h_dim a -> exists h' a' o, Ok (init_memory h d e) = Ok (h', a') /\ upd (objs m) i (Some a') = Some o /\ Inv (Mem h' o) /\
     h_dim a' = d /\ product (h_ext a') = product e /\ (product e <> 0 -> h_ext a' = e)).
  { intros d ->. unfold init_memory, alloc. destruct (U (Hdr (h_dim a) e (Some (length h)) true false)) as (o & Ho).
    eexists _, _, o. split; [reflexivity|]. split; [exact Ho|].
    split; [apply (@Inv_putOwned (Mem h o0) o i (h_dim a) e HI0 Hd He Hf); apply (N _ _ Ho)|]. cbn [h_dim h_ext]. auto. }
  destruct (Nat.eq_dec (h_dim a) 3) as [D3|D3].
  - rewrite D3 in *. destruct (h_strict a); [now left|]. right. rewrite Hfree. cbn [bind].
    destruct (Z.eqb_spec (product e) 0) as [E0|E0]; [|apply New; auto].
    destruct (U (emptyHdr 3 (map (fun _ => 0) e))) as (o & Ho). eexists h, _, o. split; [reflexivity|]. split; [exact Ho|].
    destruct He as (Hle & _). destruct (@extOk_zero 3 e Hle) as (Hz & Hz0).
    split; [|cbn [emptyHdr h_dim h_ext]; rewrite E0; split; [reflexivity|split; [apply Hz0; discriminate|congruence]]].
    apply (@Inv_put (Mem h o0) o i (emptyHdr 3 (map (fun _ => 0) e)) HI0); auto.
    split; [exact Hd|]. split; [exact Hz|]. right. split; [reflexivity|]. left. split; [reflexivity|]. apply Hz0. discriminate.
  - right. rewrite Hfree. cbn [bind]. specialize (New (h_dim a) eq_refl).
    destruct Hd as [E|[E|E]]; rewrite E in *; [exact New|congruence|exact New].
Qed.

Lemma usable_hdrOk h a n : hdrOk h a -> 0 <= n <= product (h_ext a) -> usable h a n = true.
Proof.
  intros (Hd & He & Hc) Hn. unfold usable. destruct (Z.eqb_spec n 0) as [|Hn0]; [reflexivity|]. cbn [orb].
  pose proof (extOk_nonneg He).
  destruct Hc as [(_ & p & Hp & Hb)|(_ & [(Hp & Hz)|(p & k & Hp & Hb & Hk)])]; rewrite Hp.
  - rewrite Hb. cbn [b_live b_size andb]. apply Z.leb_le. lia.
  - exfalso. lia.
  - rewrite Hb. cbn [b_live b_size andb]. apply Z.leb_le. lia.
Qed.
Lemma astep_ok m o : Inv m -> clientOk m o -> astep m o = Throws \/ exists m', astep m o = Ok m' /\ Inv m'.
Proof.
  intros HI Hc. destruct o as [d|d e|d e p s|j|i j|i e|i|n]; cbn [astep clientOk] in *.
  - right. eexists. split; [reflexivity|]. apply Inv_new; auto.
    destruct (@extOk_zero d (repeat 0 d) (repeat_length _ _)) as (Hz & Hz0). rewrite <- repeat_map in Hz, Hz0.
    split; [exact Hc|]. split; [exact Hz|]. right. split; [reflexivity|]. left. split; [reflexivity|].
    apply Hz0. destruct Hc as [-> | [-> | ->]]; discriminate.
  - right. eexists. split; [reflexivity|]. destruct Hc. apply Inv_newOwned; auto.
  - right. eexists. split; [reflexivity|]. destruct Hc as (Hd & He & b & Hb & Hcl & Hs). apply Inv_new; auto.
    split; [exact Hd|]. split; [exact He|]. right. split; [reflexivity|]. right. exists p, (b_size b).
    split; [reflexivity|]. split; [|exact Hs]. pose proof (proj2 (proj2 (proj2 HI)) _ _ Hb Hcl) as Hl.
    rewrite Hb. destruct b; cbn in *; congruence.
  - destruct Hc as (b & Hb). rewrite (getObj_eq _ _ Hb). right. pose proof (proj1 HI _ _ Hb) as Hok. pose proof Hok as (Hd & He & _).
    destruct ((h_dim b =? 3)%nat && (total (h_ext b) =? 0)).
    + eexists. split; [reflexivity|]. apply Inv_new; auto.
      split; [right; left; reflexivity|]. split; [|right; split; [reflexivity|]; left; split; reflexivity].
      split; [reflexivity|]. split; [repeat constructor; vm_compute; congruence|reflexivity].
    + unfold init_memory, alloc, copy. cbn [h_ext].
      pose proof (Inv_newOwned HI Hd He) as HI'.
      rewrite (usable_hdrOk (n := total (h_ext b)) (hdrOk_ext (Block (total (h_ext b)) false true) Hok)).
      2:{ rewrite (total_product He). pose proof (extOk_nonneg He). lia. }
      rewrite (usable_hdrOk (n := total (h_ext b))
         (a := {| h_dim := h_dim b; h_ext := h_ext b; h_ptr := Some (length (heap m)); h_owns := true; h_strict := false |})).
      * cbn [andb bind]. eexists. split; [reflexivity|exact HI'].
      * apply (proj1 HI' (length (objs m))). cbn [objs]. now rewrite nth_snoc, Nat.eqb_refl.
      * cbn [h_ext]. rewrite (total_product He). pose proof (extOk_nonneg He). lia.
  - destruct Hc as (a & b & Ha & Hb & Hdim). rewrite (getObj_eq _ _ Ha), (getObj_eq _ _ Hb).
    destruct (Nat.eqb_spec i j) as [|Hij]; [right; eauto|]. rewrite Hdim, Nat.eqb_refl. cbn [negb].
    pose proof (proj1 HI _ _ Hb) as (Hdb & Heb & _).
    destruct (@set_size_ok m i a (h_ext b) HI Ha) as [E|(h & a' & o & E & Ho & HI' & Hd' & Hp' & _)]; [now rewrite Hdim| |].
    { left. rewrite E. reflexivity. }
    right. rewrite E. cbn [bind].
    assert (Hb' : nth_error o j = Some (Some b)) by (rewrite (upd_nth_error _ _ _ j Ho); destruct (Nat.eqb_spec j i); congruence).
    assert (Ha' : nth_error o i = Some (Some a')) by (rewrite (upd_nth_error _ _ _ i Ho), Nat.eqb_refl; reflexivity).
    pose proof (proj1 HI' _ _ Hb') as Okb. pose proof (proj1 HI' _ _ Ha') as Oka. cbn [heap] in Okb, Oka.
    pose proof (extOk_nonneg Heb). unfold copy. rewrite (total_product Heb), (usable_hdrOk Okb), (usable_hdrOk Oka) by lia.
    cbn [andb bind]. unfold putObj. rewrite Ho. eauto.
  - destruct Hc as (a & Ha & He). rewrite (getObj_eq _ _ Ha). pose proof He as (Hl & _). rewrite Hl, Nat.eqb_refl. cbn [negb].
    destruct (@set_size_ok m i a e HI Ha He) as [E|(h & a' & o & E & Ho & HI' & _)]; rewrite E; cbn [bind]; [now left|].
    right. unfold putObj. rewrite Ho. eauto.
  - destruct Hc as (a & Ha). rewrite (getObj_eq _ _ Ha). right.
    destruct (Inv_destroy _ HI Ha) as (h & o & Hf & Ho & HI' & _). rewrite Hf. cbn [bind]. unfold putObj. rewrite Ho. eauto.
  - right. eexists. split; [reflexivity|]. destruct HI as (I1 & I2 & I3 & I4).
    (split; [|split; [|split]]); cbn [heap objs]; auto.
    + intros i a Hi. apply hdrOk_ext. eauto.
    + intros p k Hp. rewrite nth_snoc in Hp. destruct (p =? length (heap m))%nat; [discriminate|eauto].
    + intros p b Hp Hcl. rewrite nth_snoc in Hp. destruct (p =? length (heap m))%nat; [inversion Hp; reflexivity|eauto].
Qed.
Lemma arun_ok l : forall m, Inv m -> clientProgram m l -> exists m', arun m l = Ok m' /\ Inv m'.
Proof.
  induction l as [|o l IH]; intros m HI Hc; cbn [arun clientProgram] in *; [eauto|].
  destruct Hc as (Ho & Hc). destruct (astep_ok o HI Ho) as [E|(m' & E & HI')]; rewrite E in *; eauto.
Qed.
Lemma Inv_empty : Inv (Mem [] []).
Proof.
  (split; [|split; [|split]]); cbn [heap objs].
  - intros i a H. destruct i; discriminate.
  - intros i j a b p H. destruct i; discriminate.
  - intros p n H. destruct p; discriminate.
  - intros p n H. destruct p; discriminate.
Qed.
