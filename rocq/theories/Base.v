(** Shared mathematics: scalar rings with conjugation, finite sums, list facts.
    Nothing in this file models repository code; it fixes what "scalar" means in
    the models (C++ ValueType / BasisFunctionType / ResultType, Python dtype) and
    proves standard facts used by the proofs. *)
From Coq Require Export List Arith ZArith Lia Bool Permutation Ring Ring_theory.
Export ListNotations.
Set Implicit Arguments.

(** A commutative ring with an involutive automorphism [conj] (complex
    conjugation; the identity for real types).  Rounding is not modelled. *)
Record star_ring := StarRing {
  car :> Type;
  zero : car; one : car;
  add : car -> car -> car;
  mul : car -> car -> car;
  sub : car -> car -> car;
  opp : car -> car;
  conj : car -> car;
  sr_ring : ring_theory zero one add mul sub opp (@eq car);
  conj_add : forall x y, conj (add x y) = add (conj x) (conj y);
  conj_mul : forall x y, conj (mul x y) = mul (conj x) (conj y);
  conj_one : conj one = one;
  conj_invol : forall x, conj (conj x) = x
}.
Arguments zero {s}. Arguments one {s}. Arguments add {s}. Arguments mul {s}.
Arguments sub {s}. Arguments opp {s}. Arguments conj {s}.

Declare Scope sr_scope.
Delimit Scope sr_scope with S.
Notation "x + y" := (add x y) : sr_scope.
Notation "x * y" := (mul x y) : sr_scope.
Notation "x - y" := (sub x y) : sr_scope.
Notation "- x" := (opp x) : sr_scope.
Notation "0" := zero : sr_scope.
Notation "1" := one : sr_scope.

(** Finite sum of [f] over a list, in list order. *)
Definition bsum {K : star_ring} {A : Type} (l : list A) (f : A -> K) : K :=
  fold_right (fun a acc => add (f a) acc) zero l.

Section Sums.
  Variable K : star_ring.
  Add Ring Kring : (sr_ring K).
  Local Open Scope sr_scope.

  Lemma conj_zero : conj (0 : K) = 0.
  Proof.
    assert (H : conj (0:K) + conj 0 = conj 0 + 0).
    { rewrite <- conj_add. assert (E : (0:K) + 0 = 0) by ring. rewrite E. ring. }
    assert (H2 : (conj (0:K) + conj 0) - conj 0 = (conj 0 + 0) - conj 0) by (rewrite H; ring).
    assert (H3 : (conj (0:K) + conj 0) - conj 0 = conj 0) by ring.
    assert (H4 : (conj (0:K) + 0) - conj 0 = 0) by ring.
    congruence.
  Qed.

  Lemma conj_opp (x : K) : conj (- x) = - conj x.
  Proof.
    assert (H : conj (- x) + conj x = 0).
    { rewrite <- conj_add. assert (E : - x + x = 0) by ring. rewrite E. apply conj_zero. }
    assert (H2 : conj (- x) = (conj (- x) + conj x) - conj x) by ring.
    rewrite H2, H. ring.
  Qed.

  Lemma conj_sub (x y : K) : conj (x - y) = conj x - conj y.
  Proof.
    assert (E : x - y = x + (- y)) by ring. rewrite E, conj_add, conj_opp. ring.
  Qed.

  Lemma bsum_nil A (f : A -> K) : bsum [] f = 0.
  Proof. reflexivity. Qed.
  Lemma bsum_cons A a l (f : A -> K) : bsum (a :: l) f = f a + bsum l f.
  Proof. reflexivity. Qed.

  Lemma bsum_app A (l1 l2 : list A) (f : A -> K) :
    bsum (l1 ++ l2) f = bsum l1 f + bsum l2 f.
  Proof. induction l1 as [|a l1 IH]; cbn [app]; [rewrite bsum_nil; ring|].
    rewrite !bsum_cons, IH. ring. Qed.

  Lemma bsum_ext A (l : list A) (f g : A -> K) :
    (forall a, In a l -> f a = g a) -> bsum l f = bsum l g.
  Proof.
    induction l as [|a l IH]; intros H; [reflexivity|].
    rewrite !bsum_cons. rewrite H by (now left). rewrite IH by (intros; apply H; now right). reflexivity.
  Qed.

  Lemma bsum_perm A (l1 l2 : list A) (f : A -> K) :
    Permutation l1 l2 -> bsum l1 f = bsum l2 f.
  Proof.
    induction 1; rewrite ?bsum_cons; try congruence; try reflexivity. ring.
  Qed.

  Lemma bsum_zero A (l : list A) (f : A -> K) :
    (forall a, In a l -> f a = 0) -> bsum l f = 0.
  Proof.
    induction l as [|a l IH]; intros H; [reflexivity|].
    rewrite bsum_cons. rewrite H by (now left). rewrite IH by (intros; apply H; now right). ring.
  Qed.

  Lemma bsum_add A (l : list A) (f g : A -> K) :
    bsum l (fun a => f a + g a) = bsum l f + bsum l g.
  Proof. induction l as [|a l IH]; [rewrite ?bsum_nil; ring|]. rewrite !bsum_cons, IH. ring. Qed.

  Lemma bsum_mul_l A (l : list A) (c : K) (f : A -> K) :
    bsum l (fun a => c * f a) = c * bsum l f.
  Proof. induction l as [|a l IH]; [rewrite ?bsum_nil; ring|]. rewrite !bsum_cons, IH. ring. Qed.

  Lemma bsum_mul_r A (l : list A) (c : K) (f : A -> K) :
    bsum l (fun a => f a * c) = bsum l f * c.
  Proof. induction l as [|a l IH]; [rewrite ?bsum_nil; ring|]. rewrite !bsum_cons, IH. ring. Qed.

  Lemma bsum_map A B (l : list A) (h : A -> B) (f : B -> K) :
    bsum (map h l) f = bsum l (fun a => f (h a)).
  Proof. induction l as [|a l IH]; [reflexivity|]. cbn [map]. rewrite !bsum_cons, IH. reflexivity. Qed.

  Lemma bsum_flat_map A B (l : list A) (h : A -> list B) (f : B -> K) :
    bsum (flat_map h l) f = bsum l (fun a => bsum (h a) f).
  Proof. induction l as [|a l IH]; [reflexivity|]. cbn [flat_map]. rewrite bsum_app, bsum_cons, IH. reflexivity. Qed.

  Lemma bsum_swap A B (l : list A) (m : list B) (f : A -> B -> K) :
    bsum l (fun a => bsum m (fun b => f a b)) = bsum m (fun b => bsum l (fun a => f a b)).
  Proof.
    induction l as [|a l IH].
    - rewrite bsum_nil. symmetry. apply bsum_zero. reflexivity.
    - rewrite bsum_cons, IH, <- bsum_add. apply bsum_ext. reflexivity.
  Qed.

  Lemma bsum_filter A (l : list A) (p : A -> bool) (f : A -> K) :
    bsum (filter p l) f = bsum l (fun a => if p a then f a else 0).
  Proof.
    induction l as [|a l IH]; [reflexivity|]. cbn [filter]. rewrite bsum_cons.
    destruct (p a); rewrite ?bsum_cons, IH; ring.
  Qed.

  Lemma bsum_conj A (l : list A) (f : A -> K) :
    conj (bsum l f) = bsum l (fun a => conj (f a)).
  Proof.
    induction l as [|a l IH]; [apply conj_zero|]. rewrite !bsum_cons, conj_add, IH. reflexivity.
  Qed.

  (** A sum with a single non-zero term. *)
  Lemma bsum_single A (dec : forall x y : A, {x = y} + {x <> y}) (l : list A) (a : A) (f : A -> K) :
    NoDup l -> In a l -> (forall b, In b l -> b <> a -> f b = 0) -> bsum l f = f a.
  Proof.
    induction l as [|b l IH]; intros Hnd Hin Hz; [contradiction|].
    rewrite bsum_cons. inversion Hnd as [|? ? Hnotin Hnd']; subst.
    destruct (dec b a) as [->|Hne].
    - rewrite (bsum_zero l).
      + ring.
      + intros c Hc. apply Hz; [now right|]. intros ->; contradiction.
    - destruct Hin as [->|Hin]; [contradiction|].
      rewrite (Hz b); auto with datatypes. rewrite IH; auto with datatypes. ring.
  Qed.

  Lemma bsum_fold_left A (l : list A) (f : A -> K) (s : K) :
    fold_left (fun acc a => acc + f a) l s = s + bsum l f.
  Proof.
    revert s; induction l as [|a l IH]; intros s; cbn [fold_left]; [rewrite ?bsum_nil; ring|].
    rewrite IH, bsum_cons. ring.
  Qed.

  Lemma bsum_seq_split (a n m : nat) (f : nat -> K) :
    bsum (seq a (n + m)) f = bsum (seq a n) f + bsum (seq (a + n) m) f.
  Proof. rewrite seq_app, bsum_app. reflexivity. Qed.

  Lemma bsum_seq_shift (a n : nat) (f : nat -> K) :
    bsum (seq a n) f = bsum (seq 0 n) (fun i => f (a + i)%nat).
  Proof.
    assert (E : seq a n = map (fun i => (a + i)%nat) (seq 0 n)).
    { clear f. revert a; induction n as [|n IH]; intros a; [reflexivity|].
      cbn [seq map]. f_equal; [lia|]. rewrite IH, <- seq_shift, map_map.
      apply map_ext. intros; lia. }
    rewrite E, bsum_map. reflexivity.
  Qed.
End Sums.
Arguments bsum_filter {K A}. Arguments bsum_perm {K A l1 l2}. Arguments bsum_zero {K A}.
Arguments bsum_ext {K A}. Arguments bsum_swap {K A B}. Arguments bsum_map {K A B}.
Arguments bsum_app {K A}. Arguments bsum_flat_map {K A B}. Arguments bsum_add {K A}.
Arguments bsum_mul_l {K A}. Arguments bsum_mul_r {K A}. Arguments bsum_conj {K A}.
Arguments bsum_cons {K A}. Arguments bsum_nil {K A}. Arguments bsum_fold_left {K A}.
Arguments bsum_seq_shift {K}. Arguments bsum_seq_split {K}.

(** The integers with trivial conjugation: used to run models and in witnesses. *)
Lemma Z_ring_th : ring_theory 0%Z 1%Z Z.add Z.mul Z.sub Z.opp (@eq Z).
Proof. constructor; intros; ring. Qed.
Definition Zsr : star_ring :=
  @StarRing Z 0%Z 1%Z Z.add Z.mul Z.sub Z.opp (fun x => x) Z_ring_th
    (fun _ _ => eq_refl) (fun _ _ => eq_refl) eq_refl (fun _ => eq_refl).

(** Gaussian integers: a ring with a non-trivial conjugation. *)
Definition gi := (Z * Z)%type.
Definition gi_add (x y : gi) : gi := (fst x + fst y, snd x + snd y)%Z.
Definition gi_sub (x y : gi) : gi := (fst x - fst y, snd x - snd y)%Z.
Definition gi_opp (x : gi) : gi := (- fst x, - snd x)%Z.
Definition gi_mul (x y : gi) : gi :=
  (fst x * fst y - snd x * snd y, fst x * snd y + snd x * fst y)%Z.
Definition gi_conj (x : gi) : gi := (fst x, - snd x)%Z.
Lemma gi_ring_th : ring_theory (0,0)%Z (1,0)%Z gi_add gi_mul gi_sub gi_opp (@eq gi).
Proof.
  constructor; intros; apply injective_projections;
  unfold gi_add, gi_mul, gi_sub, gi_opp; cbn [fst snd]; ring.
Qed.
Lemma gi_conj_add x y : gi_conj (gi_add x y) = gi_add (gi_conj x) (gi_conj y).
Proof. destruct x, y; unfold gi_conj, gi_add; cbn [fst snd]; f_equal; ring. Qed.
Lemma gi_conj_mul x y : gi_conj (gi_mul x y) = gi_mul (gi_conj x) (gi_conj y).
Proof. destruct x, y; unfold gi_conj, gi_mul; cbn [fst snd]; f_equal; ring. Qed.
Lemma gi_conj_one : gi_conj (1,0)%Z = (1,0)%Z.
Proof. reflexivity. Qed.
Lemma gi_conj_invol x : gi_conj (gi_conj x) = x.
Proof. destruct x; unfold gi_conj; cbn [fst snd]; f_equal; ring. Qed.
Definition GIsr : star_ring :=
  @StarRing gi (0,0)%Z (1,0)%Z gi_add gi_mul gi_sub gi_opp gi_conj gi_ring_th
    gi_conj_add gi_conj_mul gi_conj_one gi_conj_invol.

(** List facts. *)
Section ListFacts.
  Variable A : Type.

  Lemma map_nth_seq (l : list A) (d : A) :
    map (fun i => nth i l d) (seq 0 (length l)) = l.
  Proof.
    induction l as [|a l IH]; [reflexivity|]. cbn [length seq map nth].
    f_equal. rewrite <- seq_shift, map_map. exact IH.
  Qed.

  Lemma In_seq_iff a n x : In x (seq a n) <-> a <= x < a + n.
  Proof. apply in_seq. Qed.

  Lemma NoDup_app (l1 l2 : list A) :
    NoDup l1 -> NoDup l2 -> (forall x, In x l1 -> ~ In x l2) -> NoDup (l1 ++ l2).
  Proof.
    induction l1 as [|a l1 IH]; intros H1 H2 H; [exact H2|].
    inversion H1 as [|? ? Hn H1']; subst. cbn. constructor.
    - rewrite in_app_iff. intros [Hi|Hi]; [contradiction|]. apply (H a); auto with datatypes.
    - apply IH; auto. intros x Hx. apply H. now right.
  Qed.

  Lemma NoDup_app_inv (l1 l2 : list A) :
    NoDup (l1 ++ l2) -> NoDup l1 /\ NoDup l2 /\ (forall x, In x l1 -> ~ In x l2).
  Proof.
    induction l1 as [|a l1 IH]; cbn; intros H.
    - split; [constructor|]. split; [exact H|]. intros x [].
    - inversion H as [|? ? Hn H']; subst. destruct (IH H') as (H1 & H2 & H3).
      rewrite in_app_iff in Hn. split; [constructor; tauto|]. split; [exact H2|].
      intros x [->|Hx]; [tauto|auto].
  Qed.

  Lemma NoDup_concat_map B (f : B -> list A) (l : list B) :
    NoDup l -> (forall b, In b l -> NoDup (f b)) ->
    (forall b c x, In b l -> In c l -> In x (f b) -> In x (f c) -> b = c) ->
    NoDup (flat_map f l).
  Proof.
    induction l as [|b l IH]; intros Hnd Hf Hdisj; [constructor|].
    cbn. inversion Hnd as [|? ? Hn Hnd']; subst. apply NoDup_app.
    - apply Hf; now left.
    - apply IH; auto with datatypes. intros; eapply Hdisj; eauto with datatypes.
    - intros x Hx Hx2. apply in_flat_map in Hx2. destruct Hx2 as (c & Hc & Hxc).
      assert (b = c) by (eapply Hdisj; eauto with datatypes). subst. contradiction.
  Qed.

  Lemma filter_length_le (p : A -> bool) l : length (filter p l) <= length l.
  Proof. induction l as [|a l IH]; cbn; [lia|]. destruct (p a); cbn; lia. Qed.

  Lemma Permutation_filter (p : A -> bool) l1 l2 :
    Permutation l1 l2 -> Permutation (filter p l1) (filter p l2).
  Proof.
    induction 1; cbn; auto.
    - destruct (p x); auto.
    - destruct (p x), (p y); auto. constructor.
    - eapply perm_trans; eauto.
  Qed.
End ListFacts.

(** [upd l i v] writes [v] at index [i] of a vector; [None] = out of bounds
    (undefined behaviour of std::vector::operator[] / Eigen operator()). *)
Fixpoint upd {A} (l : list A) (i : nat) (v : A) : option (list A) :=
  match l, i with
  | [], _ => None
  | _ :: t, O => Some (v :: t)
  | h :: t, S j => match upd t j v with Some t' => Some (h :: t') | None => None end
  end.

Lemma upd_Some A (l : list A) i v : i < length l -> exists l', upd l i v = Some l'.
Proof.
  revert i; induction l as [|h t IH]; cbn; intros i H; [lia|].
  destruct i as [|i]; [eauto|]. destruct (IH i) as [t' ->]; [lia|]. eauto.
Qed.

Lemma upd_None A (l : list A) i v : length l <= i -> upd l i v = None.
Proof.
  revert i; induction l as [|h t IH]; cbn; intros i H; [reflexivity|].
  destruct i as [|i]; [lia|]. rewrite IH; [reflexivity|lia].
Qed.

Lemma upd_length A (l l' : list A) i v : upd l i v = Some l' -> length l' = length l.
Proof.
  revert i l'; induction l as [|h t IH]; cbn; intros i l' H; [discriminate|].
  destruct i as [|i]; [inversion H; reflexivity|].
  destruct (upd t i v) eqn:E; inversion H; subst. cbn. f_equal. eapply IH; eauto.
Qed.

Lemma upd_lt A (l l' : list A) i v : upd l i v = Some l' -> i < length l.
Proof.
  intros H. destruct (Nat.lt_ge_cases i (length l)) as [|Hge]; [assumption|].
  rewrite (@upd_None _ l i v Hge) in H. discriminate.
Qed.

Lemma upd_nth_error A (l l' : list A) i v k :
  upd l i v = Some l' -> nth_error l' k = if k =? i then Some v else nth_error l k.
Proof.
  revert i l' k; induction l as [|h t IH]; cbn; intros i l' k H; [discriminate|].
  destruct i as [|i].
  - inversion H; subst. destruct k; reflexivity.
  - destruct (upd t i v) eqn:E; inversion H; subst. destruct k as [|k]; [reflexivity|].
    cbn. apply (IH i l k E).
Qed.

Lemma upd_nth A (l l' : list A) i v k d :
  upd l i v = Some l' -> nth k l' d = if k =? i then v else nth k l d.
Proof.
  intros H. pose proof (upd_nth_error _ _ _ k H) as E.
  destruct (k =? i) eqn:Ek.
  - eapply nth_error_nth; exact E.
  - destruct (nth_error l k) eqn:El.
    + rewrite (nth_error_nth _ _ d E), (nth_error_nth _ _ d El). reflexivity.
    + rewrite !nth_overflow; auto; apply nth_error_None; auto.
Qed.

Lemma nth_error_ext A (l1 l2 : list A) :
  (forall k, nth_error l1 k = nth_error l2 k) -> l1 = l2.
Proof.
  revert l2; induction l1 as [|a l1 IH]; intros [|b l2] H; auto.
  - specialize (H 0). discriminate.
  - specialize (H 0). discriminate.
  - pose proof (H 0) as H0. cbn in H0. inversion H0; subst. f_equal.
    apply IH. intros k. apply (H (S k)).
Qed.
