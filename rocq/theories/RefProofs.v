(** The loop of refine: termination and invariant. *)
From Coq Require Import Reals ZArith List Bool Arith Lia.
Import ListNotations.
From Verif Require Import Base BoxModel AccModel RefModel RefSpec.
Set Implicit Arguments.
Unset Strict Implicit.

(** ---- edges ---- *)
Lemma edge_eqb_ok e f : edge_eqb e f = true <-> e = f.
Proof.
  unfold edge_eqb. destruct e as [a b], f as [c d]. cbn. rewrite andb_true_iff, !Nat.eqb_eq. split; [intros [-> ->]; reflexivity | intros [= -> ->]; auto].
Qed.
Lemma edgeOf_inj a b c d : edgeOf a b = edgeOf c d -> (a = c /\ b = d) \/ (a = d /\ b = c).
Proof. unfold edgeOf. intros [= H1 H2]. lia. Qed.
Lemma edgeOf_sym a b : edgeOf a b = edgeOf b a.
Proof. unfold edgeOf. f_equal; lia. Qed.
Lemma edgeOf_self e : fst e <= snd e -> edgeOf (fst e) (snd e) = e.
Proof. destruct e as [a b]. cbn. intros. unfold edgeOf. f_equal; lia. Qed.
Definition hasEdge (t : tri) (e : edge) : Prop := exists j, j < 3 /\ elementEdge t j = e.
Lemma has_isEdge t a b : NoDup (corners t) -> (hasEdge t (edgeOf a b) <-> isEdge t a b).
Proof.
  destruct t as [[x y] z]. cbn. intros ND. inversion ND as [|? ? N1 ND']; subst. inversion ND' as [|? ? N2 _]; subst. cbn in N1, N2.
  split.
  - intros (j & Hj & E). unfold isEdge. cbn. destruct j as [|[|[|j]]]; [| | |lia]; cbn in E; apply edgeOf_inj in E; destruct E as [[E1 E2]|[E1 E2]]; subst a b;
    (split; [intros C; cbn in C; intuition congruence|]); cbn; tauto.
  - intros (N & Ha & Hb). cbn in Ha, Hb. unfold hasEdge.
    destruct Ha as [<-|[<-|[<-|[]]]], Hb as [<-|[<-|[<-|[]]]]; try congruence;
    first [ exists 0; split; [lia|]; cbn; first [reflexivity | apply edgeOf_sym] | exists 1; split; [lia|]; cbn; first [reflexivity | apply edgeOf_sym] | exists 2; split; [lia|]; cbn; first [reflexivity | apply edgeOf_sym] ].
Qed.
Lemma edge_injective t j k : NoDup (corners t) -> j < 3 -> k < 3 -> elementEdge t j = elementEdge t k -> j = k.
Proof.
  destruct t as [[x y] z]. cbn. intros ND Hj Hk E. inversion ND as [|? ? N1 ND']; subst. inversion ND' as [|? ? N2 _]; subst. cbn in N1, N2.
  destruct j as [|[|[|j]]]; [| | |lia]; (destruct k as [|[|[|k]]]; [| | |lia]); try reflexivity; exfalso; cbn in E; apply edgeOf_inj in E; cbn in E; destruct E as [[? ?]|[? ?]]; subst; tauto.
Qed.
Lemma edge_corners t j : j < 3 -> In (fst (elementEdge t j)) (corners t) /\ In (snd (elementEdge t j)) (corners t).
Proof.
  destruct t as [[x y] z]. intros Hj. destruct j as [|[|[|j]]]; [| | |lia]; cbn; split;
  repeat match goal with |- context [Nat.min ?a ?b] => destruct (Nat.min_dec a b) as [->| ->] | |- context [Nat.max ?a ?b] => destruct (Nat.max_dec a b) as [->| ->] end; tauto.
Qed.

(** ---- the elements of an edge ---- *)
Definition has (l : list nat) (t : tri) : bool := forallb (fun a => existsb (Nat.eqb a) (corners t)) l.
Lemma sharing_has els l : sharing els l = length (filter (has l) els).
Proof. reflexivity. Qed.
Lemma has_ok l t : has l t = true <-> forall a, In a l -> In a (corners t).
Proof.
  unfold has. rewrite forallb_forall. split; intros H a Ha; specialize (H a Ha).
  - apply existsb_exists in H. destruct H as (b & Hb & E). apply Nat.eqb_eq in E. now subst.
  - apply existsb_exists. exists a. split; [exact H|apply Nat.eqb_refl].
Qed.
Lemma filter_seq_nth {A} (p : A -> bool) (d : A) (l : list A) : length (filter p l) = length (filter (fun i => p (nth i l d)) (seq 0 (length l))).
Proof.
  assert (H : forall k, length (filter p l) = length (filter (fun i => p (nth (i - k) l d)) (seq k (length l)))).
  { induction l as [|a l IH]; intros k; [reflexivity|]. cbn [length seq filter]. rewrite Nat.sub_diag. change (nth 0 (a :: l) d) with a.
    assert (E : filter (fun i => p (nth (i - k) (a :: l) d)) (seq (S k) (length l)) = filter (fun i => p (nth (i - S k) l d)) (seq (S k) (length l))).
    { apply filter_ext_in. intros i Hi. apply in_seq in Hi. replace (i - k) with (S (i - S k)) by lia. reflexivity. }
    rewrite E. destruct (p a); cbn [length]; now rewrite (IH (S k)). }
  rewrite (H 0). f_equal. apply filter_ext. intros i. now rewrite Nat.sub_0_r.
Qed.
Lemma in_elementsAt g e i : In i (elementsAt g e) <-> i < length (v_elements g) /\ hasEdge (element g i) e.
Proof.
  unfold elementsAt. rewrite filter_In, in_seq, existsb_exists. split.
  - intros [Hi (j & Hj & E)]. apply edge_eqb_ok in E. split; [lia|]. exists j. split; [cbn in Hj; lia|exact E].
  - intros [Hi (j & Hj & E)]. split; [lia|]. exists j. split; [cbn; lia|now apply edge_eqb_ok].
Qed.
Lemma nodup_elementsAt g e : NoDup (elementsAt g e).
Proof. apply NoDup_filter, seq_NoDup. Qed.

Section Loop.
  Variable g : view.
  Hypothesis WF : wellFormed g.
  Let n := length (v_elements g).
  Let nv := length (v_vertices g).
  Lemma element_in i : i < n -> In (element g i) (v_elements g).
  Proof. intros. now apply nth_In. Qed.
  Lemma element_nodup i : i < n -> NoDup (corners (element g i)).
  Proof. intros H. destruct WF as (_ & _ & _ & W). now apply W, element_in. Qed.
  Lemma element_bound i a : i < n -> In a (corners (element g i)) -> a < nv.
  Proof. intros H. destruct WF as (_ & _ & _ & W). now apply W, element_in. Qed.
  Lemma refEdge_bound i : i < n -> refEdge g i < 3.
  Proof. intros H. destruct WF as (_ & W1 & W2 & _). apply W2. apply nth_In. unfold n in H. lia. Qed.
  Lemma elementsAt_sharing a b : a <> b -> length (elementsAt g (edgeOf a b)) = sharing (v_elements g) [a; b].
  Proof.
    intros N. rewrite sharing_has, (filter_seq_nth (has [a; b]) (0, 0, 0)). unfold elementsAt. f_equal. apply filter_ext_in. intros i Hi. apply in_seq in Hi.
    apply eq_true_iff_eq. rewrite has_ok. pose proof (has_isEdge a b (@element_nodup i ltac:(unfold n; lia))) as HE.
    transitivity (hasEdge (element g i) (edgeOf a b)).
    - rewrite existsb_exists. split.
      + intros (j & Hj & E). apply edge_eqb_ok in E. exists j. split; [cbn in Hj; lia|exact E].
      + intros (j & Hj & E). exists j. split; [cbn; lia|now apply edge_eqb_ok].
    - rewrite HE. unfold isEdge. split.
      + intros (_ & H1 & H2) c [<-|[<-|[]]]; assumption.
      + intros H. split; [exact N|]. split; apply H; cbn; auto.
  Qed.

  (** ---- termination ---- *)
  Definition open (s : rstate) : nat := length (filter (fun i => isNone (r_list s i (refEdge g i))) (seq 0 n)).
  Definition fuel (s : rstate) : nat := open s + length (r_marked s).
  Definition sane (s : rstate) : Prop := forall i, In i (r_marked s) -> i < n.
  Lemma filter_len_le {A} (p q : A -> bool) l : (forall a, In a l -> p a = true -> q a = true) -> length (filter p l) <= length (filter q l).
  Proof.
    induction l as [|a l IH]; intros H; [reflexivity|]. cbn. specialize (IH (fun b Hb => H b (or_intror Hb))). pose proof (H a (or_introl eq_refl)) as Ha.
    destruct (p a); [rewrite (Ha eq_refl); cbn; lia|]. destruct (q a); cbn; lia.
  Qed.
  Lemma filter_len_lt {A} (p q : A -> bool) l x : In x l -> p x = false -> q x = true -> (forall a, In a l -> p a = true -> q a = true) -> length (filter p l) < length (filter q l).
  Proof.
    induction l as [|a l IH]; intros Hx P Q H; [destruct Hx|]. cbn. destruct Hx as [->|Hx].
    - rewrite P, Q. cbn. pose proof (filter_len_le (fun b Hb => H b (or_intror Hb))). lia.
    - specialize (IH Hx P Q (fun b Hb => H b (or_intror Hb))). pose proof (H a (or_introl eq_refl)) as Ha.
      destruct (p a); [rewrite (Ha eq_refl); cbn; lia|]. destruct (q a); cbn; lia.
  Qed.
  Lemma remove_len i l : In i l -> length (filter (fun x => negb (x =? i)) l) < length l.
  Proof.
    intros H. assert (E : length l = length (filter (fun _ : nat => true) l)) by (clear; induction l; cbn; lia). rewrite E.
    apply filter_len_lt with (x := i); auto. now rewrite Nat.eqb_refl.
  Qed.
  Lemma addMark_len x l : length (addMark x l) <= S (length l).
  Proof. unfold addMark. destruct (existsb _ _); cbn; lia. Qed.
  Lemma setEntry_keeps l i j v a b : isNone (setEntry l i j v a b) = true -> isNone (l a b) = true.
  Proof. unfold setEntry. destruct (_ && _); [discriminate|auto]. Qed.
  Lemma fold_keeps (t : tri) e other v js : forall l a b, isNone (fold_left (fun l j => if edge_eqb (elementEdge t j) e then setEntry l other j v else l) js l a b) = true -> isNone (l a b) = true.
  Proof.
    induction js as [|j js IH]; intros l a b H; [exact H|]. cbn in H. apply IH in H. destruct (edge_eqb _ _); [now apply setEntry_keeps in H|exact H].
  Qed.
  Lemma turn_fuel s i : sane s -> In i (r_marked s) -> fuel (turn g s i) < fuel s.
  Proof.
    intros S Hi. unfold turn. destruct (isNone (r_list s i (refEdge g i))) eqn:E.
    - assert (O : forall m l' v' w', (forall a b, isNone (l' a b) = true -> isNone (r_list s a b) = true) -> isNone (l' i (refEdge g i)) = false -> open (RState m l' v' w') < open s).
      { intros m l' v' w' K F. apply filter_len_lt with (x := i); cbn; auto. apply in_seq. pose proof (S i Hi). lia. }
      assert (K1 : isNone (setEntry (r_list s) i (refEdge g i) (r_number s) i (refEdge g i)) = false) by (unfold setEntry; now rewrite !Nat.eqb_refl).
      pose proof (remove_len Hi) as R.
      destruct (length _ =? 1).
      + unfold fuel. cbn [r_marked]. match goal with |- context [open ?x] => assert (open x < open s) by (apply O; [apply setEntry_keeps|exact K1]) end. lia.
      + unfold fuel. cbn [r_marked]. match goal with |- context [open ?x] => assert (open x < open s) end.
        { apply O; [intros a b H; apply fold_keeps in H; now apply setEntry_keeps in H|].
          match goal with |- ?x = false => destruct x eqn:F; [|reflexivity] end. apply fold_keeps in F. rewrite K1 in F. discriminate. }
        match goal with H : open ?x < open s |- _ => generalize dependent (open x) end. intros w Hw.
        match goal with |- w + length ?m < _ => assert (length m <= Datatypes.S (length (filter (fun x => negb (x =? i)) (r_marked s)))) end.
        { match goal with |- length (if ?b then _ else _) <= _ => destruct b end; [apply addMark_len|lia]. }
        lia.
    - unfold fuel, open. cbn [r_marked r_list]. pose proof (remove_len Hi). lia.
  Qed.
  Lemma addMark_in x l y : In y (addMark x l) <-> y = x \/ In y l.
  Proof.
    unfold addMark. destruct (existsb (Nat.eqb x) l) eqn:E; cbn; [|intuition congruence].
    apply existsb_exists in E. destruct E as (z & Hz & Ez). apply Nat.eqb_eq in Ez. subst z. intuition congruence.
  Qed.
  Lemma removed_in i l y : In y (filter (fun x => negb (x =? i)) l) <-> In y l /\ y <> i.
  Proof. rewrite filter_In, negb_true_iff, Nat.eqb_neq. reflexivity. Qed.
  (** the other element at an edge *)
  Definition otherAt (e : edge) (i : nat) : nat := let nb := elementsAt g e in if nth 0 nb 0 =? i then nth 1 nb 0 else nth 0 nb 0.
  Lemma otherAt_in e i : In i (elementsAt g e) -> length (elementsAt g e) <> 1 -> In (otherAt e i) (elementsAt g e) /\ otherAt e i <> i.
  Proof.
    unfold otherAt. pose proof (nodup_elementsAt g e) as ND. destruct (elementsAt g e) as [|a [|b l]]; intros Hi Hl; [destruct Hi|cbn in Hl; lia|]. cbn [nth].
    destruct (a =? i) eqn:E.
    - apply Nat.eqb_eq in E. subst a. split; [cbn; auto|]. inversion ND as [|? ? N _]; subst. cbn in N. intuition congruence.
    - apply Nat.eqb_neq in E. split; [cbn; auto|exact E].
  Qed.
  Lemma own_edge i : i < n -> In i (elementsAt g (elementEdge (element g i) (refEdge g i))).
  Proof. intros H. apply in_elementsAt. split; [exact H|]. exists (refEdge g i). split; [now apply refEdge_bound|reflexivity]. Qed.
  Lemma turn_sane s i : sane s -> In i (r_marked s) -> sane (turn g s i).
  Proof.
    intros S Hi x Hx. pose proof (S i Hi) as Li. unfold turn in Hx. destruct (isNone (r_list s i (refEdge g i))).
    - destruct (length _ =? 1) eqn:L.
      + apply removed_in in Hx. now apply S.
      + apply Nat.eqb_neq in L. cbn [r_marked] in Hx. destruct (isNone _).
        * apply addMark_in in Hx. destruct Hx as [->|Hx]; [|apply removed_in in Hx; now apply S].
          destruct (otherAt_in (own_edge Li) L) as [O _]. apply in_elementsAt in O. apply O.
        * apply removed_in in Hx. now apply S.
    - apply removed_in in Hx. now apply S.
  Qed.
  Lemma steps_fuel k : forall s s', sane s -> rsteps g k s s' -> sane s' /\ k + fuel s' <= fuel s.
  Proof.
    induction k as [|k IH]; intros s s' S H; inversion H as [|? ? s1 ? H1 H2]; subst; [split; [exact S|lia]|].
    inversion H1 as [? i Hi]; subst. pose proof (turn_fuel S Hi). destruct (IH _ _ (turn_sane S Hi) H2) as [S' L]. split; [exact S'|lia].
  Qed.

  (** ---- the invariant, for surfaces ---- *)
  Hypothesis SF : surface g.
  Variable marks0 : list nat.
  Hypothesis MK : forall i, In i marks0 -> i < n.
  Definition keyOf i j := elementEdge (element g i) j.
  Record inv (s : rstate) : Prop := Inv {
    inv_number : r_number s = nv + length (r_new s);
    inv_nodup : NoDup (r_new s);
    inv_edges : forall e, In e (r_new s) -> exists i j, i < n /\ j < 3 /\ keyOf i j = e;
    inv_list : forall i j v, i < n -> j < 3 -> (r_list s i j = Some v <-> exists k, nth_error (r_new s) k = Some (keyOf i j) /\ v = nv + k);
    inv_closed : forall i j, i < n -> j < 3 -> r_list s i j <> None -> r_list s i (refEdge g i) <> None \/ In i (r_marked s);
    inv_marked : forall i, In i marks0 -> In i (r_marked s) \/ r_list s i (refEdge g i) <> None;
    inv_least : forall P : edge -> Prop, (forall i, In i marks0 -> P (keyOf i (refEdge g i))) ->
                  (forall i j, i < n -> j < 3 -> P (keyOf i j) -> P (keyOf i (refEdge g i))) ->
                  (forall e, In e (r_new s) -> P e) /\ (forall i, In i (r_marked s) -> P (keyOf i (refEdge g i))) }.
  Lemma inv_start : inv (rstart g marks0).
  Proof.
    split; cbn [rstart r_number r_new r_list r_marked length].
    - unfold nv. lia.
    - constructor.
    - intros e [].
    - intros i j v _ _. split; [discriminate|]. intros (k & H & _). destruct k; discriminate.
    - intros i j _ _ C. congruence.
    - intros i Hi. now left.
    - intros P P1 P2. split; [intros e []|exact P1].
  Qed.
  Lemma none_iff s i j : inv s -> i < n -> j < 3 -> (r_list s i j = None <-> ~ In (keyOf i j) (r_new s)).
  Proof.
    intros H Hi Hj. split.
    - intros E I. apply In_nth_error in I. destruct I as (k & I). assert (X : r_list s i j = Some (nv + k)) by (apply (inv_list H); eauto). congruence.
    - intros NI. destruct (r_list s i j) as [v|] eqn:E; [|reflexivity]. apply (inv_list H) in E; try assumption. destruct E as (k & E & _). apply nth_error_In in E. contradiction.
  Qed.
  Lemma fold_set (t : tri) e other v l a b : b < 3 ->
    fold_left (fun l j => if edge_eqb (elementEdge t j) e then setEntry l other j v else l) [0; 1; 2] l a b
    = if (a =? other) && edge_eqb (elementEdge t b) e then Some v else l a b.
  Proof.
    intros Hb. cbn [fold_left].
    destruct (edge_eqb (elementEdge t 0) e) eqn:E0, (edge_eqb (elementEdge t 1) e) eqn:E1, (edge_eqb (elementEdge t 2) e) eqn:E2; unfold setEntry;
    (destruct b as [|[|[|b]]]; [| | |lia]); rewrite ?E0, ?E1, ?E2; destruct (a =? other); cbn; reflexivity.
  Qed.
  Lemma turn_inv s i : sane s -> inv s -> In i (r_marked s) -> inv (turn g s i).
  Proof.
    intros S H Hi. pose proof (S i Hi) as Li. pose proof (refEdge_bound Li) as Lr.
    unfold turn. destruct (r_list s i (refEdge g i)) as [v0|] eqn:E; cbn [isNone].
    - split; cbn [r_number r_new r_list r_marked]; try apply H.
      + intros a j La Lj X. destruct (inv_closed H La Lj X) as [C|C]; [now left|]. destruct (Nat.eq_dec a i) as [->|N]; [left; congruence|right; apply removed_in; auto].
      + intros a Ha. destruct (inv_marked H Ha) as [C|C]; [|now right]. destruct (Nat.eq_dec a i) as [->|N]; [right; congruence|left; apply removed_in; auto].
      + intros P P1 P2. destruct (inv_least H P1 P2) as [Q1 Q2]. split; [exact Q1|]. intros a Ha. apply removed_in in Ha. now apply Q2.
    - set (e := elementEdge (element g i) (refEdge g i)). fold (otherAt e i).
      assert (NE : ~ In e (r_new s)) by now apply none_iff.
      pose proof (own_edge Li) as OE. fold e in OE.
      assert (EE : e = edgeOf (corner (element g i) (fst (duneEdge (refEdge g i)))) (corner (element g i) (snd (duneEdge (refEdge g i))))) by reflexivity.
      assert (ND : corner (element g i) (fst (duneEdge (refEdge g i))) <> corner (element g i) (snd (duneEdge (refEdge g i)))).
      { pose proof (element_nodup Li) as N0. destruct (element g i) as [[x y] z]. cbn in N0. inversion N0 as [|? ? N1 N0']; subst. inversion N0' as [|? ? N2 _]; subst. cbn in N1, N2.
        destruct (refEdge g i) as [|[|[|q]]]; [| | |lia]; cbn; intros C; subst; tauto. }
      assert (L2 : length (elementsAt g e) <= 2) by (rewrite EE, elementsAt_sharing by exact ND; now apply SF).
      (* which entries are set *)
      assert (PR : forall m l' , (forall a b, a < n -> b < 3 -> l' a b = if edge_eqb (keyOf a b) e then Some (r_number s) else r_list s a b) ->
          (forall a, In a m -> In a (r_marked s) /\ a <> i \/ (a < n /\ exists b, b < 3 /\ keyOf a b = e)) ->
          (forall a, In a (r_marked s) -> a <> i -> In a m) ->
          (forall a b, a < n -> b < 3 -> keyOf a b = e -> l' a (refEdge g a) <> None \/ In a m) ->
          inv (RState m l' (Datatypes.S (r_number s)) (r_new s ++ [e]))).
      { intros m l' HL HM1 HM2 HC.
        assert (IL : forall a b, a < n -> b < 3 -> r_list s a b <> None -> l' a b <> None).
        { intros a b La Lb X. rewrite HL by assumption. destruct (edge_eqb _ _); [discriminate|exact X]. }
        split; cbn [r_number r_new r_list r_marked].
        - rewrite app_length. cbn. rewrite (inv_number H). lia.
        - apply (Permutation.Permutation_NoDup (Permutation.Permutation_cons_append (r_new s) e)). constructor; [exact NE|apply H].
        - intros f Hf. apply in_app_iff in Hf. destruct Hf as [Hf|[<-|[]]]; [now apply (inv_edges H)|]. exists i, (refEdge g i). auto.
        - intros a b v La Lb. rewrite HL by assumption. destruct (edge_eqb (keyOf a b) e) eqn:Q.
          + apply edge_eqb_ok in Q. split.
            * intros [= <-]. exists (length (r_new s)). rewrite nth_error_app2, Nat.sub_diag by lia. rewrite Q. split; [reflexivity|apply (inv_number H)].
            * intros (k & K1 & ->). rewrite Q in K1. destruct (Nat.lt_ge_cases k (length (r_new s))) as [C|C].
              -- rewrite nth_error_app1 in K1 by exact C. apply nth_error_In in K1. contradiction.
              -- assert (k < length (r_new s ++ [e])) by (apply nth_error_Some; congruence). rewrite app_length in *. cbn in *. rewrite (inv_number H). f_equal. lia.
          + rewrite (inv_list H) by assumption. split; intros (k & K1 & K2); exists k; (split; [|exact K2]).
            * rewrite nth_error_app1; [exact K1|]. apply nth_error_Some. congruence.
            * destruct (Nat.lt_ge_cases k (length (r_new s))) as [C|C]; [now rewrite nth_error_app1 in K1 by exact C|].
              rewrite nth_error_app2 in K1 by exact C. destruct (k - length (r_new s)) as [|r]; [|destruct r; discriminate]. cbn [nth_error] in K1. assert (K3 : keyOf a b = e) by congruence.
              rewrite K3, (proj2 (edge_eqb_ok e e)) in Q by reflexivity. discriminate.
        - intros a b La Lb X. destruct (edge_eqb (keyOf a b) e) eqn:Q.
          + apply edge_eqb_ok in Q. now apply (HC a b).
          + rewrite HL, Q in X by assumption. destruct (inv_closed H La Lb X) as [C|C]; [left; apply IL; auto using refEdge_bound|].
            destruct (Nat.eq_dec a i) as [->|N]; [|right; now apply HM2]. left. rewrite HL by assumption. unfold keyOf. fold e. now rewrite (proj2 (edge_eqb_ok e e)).
        - intros a Ha. pose proof (MK Ha) as La. destruct (inv_marked H Ha) as [C|C]; [|right; apply IL; auto using refEdge_bound].
          destruct (Nat.eq_dec a i) as [->|N]; [|left; now apply HM2]. right. rewrite HL by assumption. unfold keyOf. fold e. now rewrite (proj2 (edge_eqb_ok e e)).
        - intros P P1 P2. destruct (inv_least H P1 P2) as [Q1 Q2]. assert (Pe : P e) by now apply Q2. split.
          + intros f Hf. apply in_app_iff in Hf. destruct Hf as [Hf|[<-|[]]]; [now apply Q1|exact Pe].
          + intros a Ha. destruct (HM1 a Ha) as [[C _]|(La & b & Lb & Kb)]; [now apply Q2|]. apply (P2 a b La Lb). now rewrite Kb. }
      destruct (length (elementsAt g e) =? 1) eqn:L1.
      + apply Nat.eqb_eq in L1. assert (ON : forall a b, a < n -> b < 3 -> keyOf a b = e -> a = i).
        { intros a b La Lb K. assert (A : In a (elementsAt g e)) by (apply in_elementsAt; split; [exact La|now exists b]). destruct (elementsAt g e) as [|x [|y l]]; try (cbn in L1; lia).
          destruct OE as [->|[]], A as [<-|[]]. reflexivity. }
        apply PR.
        * intros a b La Lb. unfold setEntry. destruct (edge_eqb (keyOf a b) e) eqn:Q.
          -- apply edge_eqb_ok in Q. pose proof (ON a b La Lb Q). subst a. assert (b = refEdge g i) by (eapply edge_injective; eauto using element_nodup). subst b. now rewrite !Nat.eqb_refl.
          -- destruct ((a =? i) && (b =? refEdge g i)) eqn:Z; [|reflexivity]. apply andb_true_iff in Z. destruct Z as [Z1 Z2]. apply Nat.eqb_eq in Z1, Z2. subst. unfold keyOf in Q. fold e in Q.
             rewrite (proj2 (edge_eqb_ok e e)) in Q by reflexivity. discriminate.
        * intros a Ha. apply removed_in in Ha. now left.
        * intros a Ha N. apply removed_in. auto.
        * intros a b La Lb K. rewrite (ON a b La Lb K). left. unfold setEntry. now rewrite !Nat.eqb_refl.
      + apply Nat.eqb_neq in L1. destruct (otherAt_in OE L1) as [O1 O2]. set (o := otherAt e i) in *. apply in_elementsAt in O1. destruct O1 as [Lo (jo & Ljo & Ko)].
        change (elementsAt g e) with (elementsAt g e). fold o.
        assert (ON : forall a b, a < n -> b < 3 -> keyOf a b = e -> a = i \/ a = o).
        { intros a b La Lb K. assert (A : In a (elementsAt g e)) by (apply in_elementsAt; split; [exact La|now exists b]).
          assert (B : In o (elementsAt g e)) by (apply in_elementsAt; split; [exact Lo|now exists jo]).
          destruct (elementsAt g e) as [|x [|y [|z l]]]; try (cbn in L1, L2; lia); [destruct OE|]. cbn in A, B, OE. intuition congruence. }
        match goal with |- inv (RState ?m0 ?l0 _ _) => set (m' := m0); set (l' := l0) end.
        assert (HL : forall a b, a < n -> b < 3 -> l' a b = if edge_eqb (keyOf a b) e then Some (r_number s) else r_list s a b).
        { intros a b La Lb. unfold l'. rewrite fold_set by exact Lb. destruct (edge_eqb (keyOf a b) e) eqn:Q.
          -- apply edge_eqb_ok in Q. destruct (ON a b La Lb Q) as [->| ->].
             ++ assert (b = refEdge g i) by (eapply edge_injective; eauto using element_nodup). subst b. rewrite (proj2 (Nat.eqb_neq i o)) by congruence. cbn. unfold setEntry. now rewrite !Nat.eqb_refl.
             ++ rewrite Nat.eqb_refl. unfold keyOf in Q. rewrite Q, (proj2 (edge_eqb_ok e e)) by reflexivity. reflexivity.
          -- assert (NO : (a =? o) && edge_eqb (elementEdge (element g o) b) e = false).
             { destruct (a =? o) eqn:Z; [|reflexivity]. apply Nat.eqb_eq in Z. subst a. exact Q. }
             rewrite NO. unfold setEntry. destruct ((a =? i) && (b =? refEdge g i)) eqn:Z; [|reflexivity]. apply andb_true_iff in Z. destruct Z as [Z1 Z2]. apply Nat.eqb_eq in Z1, Z2. subst. unfold keyOf in Q. fold e in Q.
             rewrite (proj2 (edge_eqb_ok e e)) in Q by reflexivity. discriminate. }
        apply PR; [exact HL| | |].
        * intros a Ha. unfold m' in Ha. destruct (isNone _).
          -- apply addMark_in in Ha. destruct Ha as [->|Ha]; [right; split; [exact Lo|now exists jo]|]. apply removed_in in Ha. now left.
          -- apply removed_in in Ha. now left.
        * intros a Ha N. unfold m'. destruct (isNone _); [apply addMark_in; right|]; now apply removed_in.
        * intros a b La Lb K. destruct (ON a b La Lb K) as [->| ->].
          -- left. rewrite HL by (assumption || now apply refEdge_bound). unfold keyOf. fold e. now rewrite (proj2 (edge_eqb_ok e e)).
          -- unfold m'. match goal with |- context [isNone ?x] => destruct x eqn:Z end; cbn [isNone].
             ++ left. rewrite HL by (assumption || now apply refEdge_bound). destruct (edge_eqb _ _); [discriminate|]. unfold setEntry in Z. rewrite (proj2 (Nat.eqb_neq o i)) in Z by congruence. cbn in Z. congruence.
             ++ right. apply addMark_in. now left.
  Qed.
  Lemma steps_inv k : forall s s', sane s -> inv s -> rsteps g k s s' -> inv s'.
  Proof.
    induction k as [|k IH]; intros s s' S H R; inversion R as [|? ? s1 ? H1 H2]; subst; [exact H|]. inversion H1 as [? i Hi]; subst.
    apply (IH (turn g s i)); auto using turn_sane, turn_inv.
  Qed.
End Loop.
