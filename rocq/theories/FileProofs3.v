(** Building the grid structure from the parsed file. *)
From Coq Require Import List ZArith Bool Lia Ascii String Sorted.
From Verif Require Import Base FileModel FileSpec FileProofs1 FileProofs2.
Import ListNotations.
Set Implicit Arguments.
Unset Strict Implicit.
Local Open Scope Z_scope.

Lemma setNth_split {A} (l : list A) i a b : nth_error l i = Some a -> exists l1 l2, l = l1 ++ a :: l2 /\ setNth l i b = l1 ++ b :: l2 /\ List.length l1 = i.
Proof.
  revert i. induction l as [|x l IH]; intros [|i] H; try discriminate H.
  - inversion H; subst. exists [], l. repeat split.
  - destruct (IH i H) as (l1 & l2 & E1 & E2 & E3). exists (x :: l1), l2. cbn [setNth app List.length]. rewrite E2, E3, E1. repeat split.
Qed.
Lemma pyget_range {A} (l : list A) v a : 1 <= v -> nth_error l (Z.to_nat (v - 1)) = Some a -> pyget l (v - 1) = Some a.
Proof. intros H E. replace (v - 1) with (Z.of_nat (Z.to_nat (v - 1))) by lia. apply pyget_pos, E. Qed.
Lemma pyset_range {A} (l : list A) v a b : 1 <= v -> nth_error l (Z.to_nat (v - 1)) = Some a -> pyset l (v - 1) b = Some (setNth l (Z.to_nat (v - 1)) b).
Proof.
  intros H E. assert (L : (Z.to_nat (v - 1) < List.length l)%nat) by (apply nth_error_Some; congruence). unfold pyset.
  assert ((0 <=? v - 1) && (v - 1 <? Z.of_nat (List.length l)) = true) as ->. { apply andb_true_iff. split; [apply Z.leb_le|apply Z.ltb_lt]; lia. }
  reflexivity.
Qed.
Lemma sorted_unique (a b : list Z) : StronglySorted Z.le a -> StronglySorted Z.le b -> Permutation a b -> a = b.
Proof.
  revert b. induction a as [|x a IH]; intros b Sa Sb P. { apply Permutation_nil in P. congruence. }
  destruct b as [|y b]. { apply Permutation_sym, Permutation_nil in P. discriminate. }
  apply StronglySorted_inv in Sa as (Sa & Fa). apply StronglySorted_inv in Sb as (Sb & Fb).
  assert (x = y). { assert (Ix : In x (y :: b)) by (eapply Permutation_in; [exact P|now left]). assert (Iy : In y (x :: a)) by (eapply Permutation_in; [apply Permutation_sym, P|now left]).
    rewrite Forall_forall in Fa, Fb. destruct Ix as [Ix|Ix]; [congruence|]. destruct Iy as [Iy|Iy]; [congruence|]. specialize (Fa _ Iy). specialize (Fb _ Ix). lia. }
  subst y. f_equal. apply IH; try assumption. eapply Permutation_cons_inv, P.
Qed.

(** the ids seen so far, in order; vertex_used holds their positions *)
Record used_inv (n : nat) (seen : list Z) (used : list Z) (count : Z) : Prop := {
  ui_len : List.length used = n;
  ui_count : count = Z.of_nat (List.length seen);
  ui_nodup : NoDup seen;
  ui_range : forall v, In v seen -> 1 <= v <= Z.of_nat n;
  ui_seen : forall k v, nth_error seen k = Some v -> nth_error used (Z.to_nat (v - 1)) = Some (Z.of_nat k);
  ui_new : forall v, 1 <= v <= Z.of_nat n -> ~ In v seen -> nth_error used (Z.to_nat (v - 1)) = Some (-1);
  ui_le : (List.length seen <= n)%nat;
  ui_perm : Permutation used (repeat (-1) (n - List.length seen) ++ map Z.of_nat (seq 0 (List.length seen)))
}.
Lemma used_start n : used_inv n [] (repeat (-1) n) 0.
Proof.
  constructor; try reflexivity; try (intros; contradiction).
  - apply repeat_length.
  - constructor.
  - intros [|k] v H; discriminate H.
  - intros v H _. assert (L : (Z.to_nat (v - 1) < List.length (repeat (-1)%Z n))%nat) by (rewrite repeat_length; lia).
    destruct (nth_error (repeat (-1) n) (Z.to_nat (v - 1))) as [x|] eqn:E. { f_equal. symmetry. apply nth_error_In in E. apply repeat_spec in E. congruence. }
    apply nth_error_None in E. lia.
  - cbn. lia.
  - cbn [List.length seq map]. rewrite Nat.sub_0_r, app_nil_r. apply Permutation_refl.
Qed.
Definition prefix {A} (a b : list A) : Prop := exists c, b = a ++ c.
Lemma prefix_refl {A} (a : list A) : prefix a a. Proof. exists []. rewrite app_nil_r. reflexivity. Qed.
Lemma prefix_trans {A} (a b c : list A) : prefix a b -> prefix b c -> prefix a c.
Proof. intros (x & ->) (y & ->). exists (x ++ y). rewrite app_assoc. reflexivity. Qed.
Lemma prefix_nth {A} (a b : list A) k v : prefix a b -> nth_error a k = Some v -> nth_error b k = Some v.
Proof. intros (c & ->) H. rewrite nth_error_app1; [exact H|]. apply nth_error_Some. congruence. Qed.

Lemma useVertex_ok n seen used count v : used_inv n seen used count -> 1 <= v <= Z.of_nat n ->
  exists x seen' used' count', useVertex (used, count) v = Ok (x, (used', count')) /\ used_inv n seen' used' count' /\ prefix seen seen' /\
    0 <= x /\ nth_error seen' (Z.to_nat x) = Some v /\ (forall w, In w seen' -> In w seen \/ w = v).
Proof.
  intros I R. unfold useVertex. destruct (in_dec Z.eq_dec v seen) as [Si|Si].
  - apply In_nth_error in Si as (k & K). assert (U := ui_seen I K). rewrite (pyget_range (proj1 R) U). cbn [get bind].
    destruct (Z.eqb_spec (Z.of_nat k) (-1)); [lia|]. exists (Z.of_nat k), seen, used, count. split; [reflexivity|]. split; [exact I|]. split; [apply prefix_refl|]. split; [lia|]. split.
    + rewrite Nat2Z.id. exact K.
    + intros w W. now left.
  - assert (U := ui_new I R Si). rewrite (pyget_range (proj1 R) U). cbn [get bind Z.eqb]. change ((-1 =? -1)) with true. cbn iota.
    rewrite (pyset_range count (proj1 R) U). cbn [get bind].
    destruct (setNth_split count U) as (l1 & l2 & E1 & E2 & E3). set (i := Z.to_nat (v - 1)) in *.
    assert (LT : (List.length seen < n)%nat).
    { assert (P := ui_perm I). assert (L := ui_le I). destruct (Nat.eq_dec (List.length seen) n) as [Eq|Eq]; [|lia]. exfalso.
      rewrite Eq, Nat.sub_diag in P. cbn [repeat app] in P. assert (X : In (-1) (map Z.of_nat (seq 0 n))).
      { eapply Permutation_in; [exact P|]. rewrite E1. apply in_app_iff. right. now left. }
      apply in_map_iff in X as (m & X & _). lia. }
    exists count, (seen ++ [v]), (setNth used i count), (count + 1). split; [reflexivity|]. split; [|split; [|split; [|split]]].
    + constructor.
      * rewrite E2, app_length. cbn [List.length]. rewrite <- (ui_len I), E1, app_length. reflexivity.
      * rewrite app_length, (ui_count I). cbn. lia.
      * rewrite <- (rev_involutive seen). change [v] with (rev [v]). rewrite <- rev_app_distr. apply NoDup_rev. constructor; [rewrite <- in_rev; exact Si|apply NoDup_rev, (ui_nodup I)].
      * intros w W. apply in_app_iff in W as [W|[<-|[]]]; [apply (ui_range I), W|exact R].
      * intros k w K. destruct (Nat.ltb_spec k (List.length seen)) as [Lk|Lk].
        -- rewrite nth_error_app1 in K by exact Lk. assert (Hw := ui_seen I K). assert (Rw := ui_range I (nth_error_In _ _ K)).
           assert (Ne : Z.to_nat (w - 1) <> i). { intros Eq. assert (w = v) by (unfold i in Eq; lia). subst w. apply Si. eapply nth_error_In, K. }
           rewrite E2. rewrite E1 in Hw. destruct (Nat.ltb_spec (Z.to_nat (w - 1)) (List.length l1)).
           ++ rewrite nth_error_app1 in * by lia. exact Hw.
           ++ rewrite nth_error_app2 in * by lia. destruct (Z.to_nat (w - 1) - List.length l1)%nat eqn:Q; [lia|exact Hw].
        -- rewrite nth_error_app2 in K by exact Lk. destruct (k - List.length seen)%nat eqn:Q; [|destruct n0; discriminate K]. inversion K; subst w.
           rewrite E2. fold i. rewrite nth_error_app2 by lia. rewrite E3, Nat.sub_diag. cbn. f_equal. rewrite (ui_count I). lia.
      * intros w Rw W. assert (Ne : w <> v). { intros ->. apply W, in_app_iff. right. now left. }
        assert (Hw := ui_new I Rw (fun X => W (proj2 (in_app_iff _ _ _) (or_introl X)))).
        rewrite E2. rewrite E1 in Hw. destruct (Nat.ltb_spec (Z.to_nat (w - 1)) (List.length l1)).
        -- rewrite nth_error_app1 in * by lia. exact Hw.
        -- rewrite nth_error_app2 in * by lia. destruct (Z.to_nat (w - 1) - List.length l1)%nat eqn:Q; [unfold i in *; lia|exact Hw].
      * rewrite app_length. cbn. lia.
      * rewrite app_length. cbn [List.length]. rewrite Nat.add_1_r, seq_S, map_app. cbn [map Nat.add].
        assert (P := ui_perm I). rewrite E1 in P. replace (n - List.length seen)%nat with (S (n - S (List.length seen))) in P by lia. cbn [repeat app] in P.
        apply Permutation_sym, Permutation_cons_app_inv, Permutation_sym in P. rewrite E2.
        eapply Permutation_trans; [apply Permutation_sym, Permutation_middle|]. rewrite <- (ui_count I), app_assoc.
        eapply Permutation_trans; [apply perm_skip, P|]. apply Permutation_cons_append.
    + exists [v]. reflexivity.
    + rewrite (ui_count I). lia.
    + rewrite (ui_count I), Nat2Z.id. rewrite nth_error_app2, Nat.sub_diag by lia. reflexivity.
    + intros w W. apply in_app_iff in W as [W|[<-|[]]]; [now left|now right].
Qed.
Lemma Forall2_imp {A B} (P Q : A -> B -> Prop) a b : (forall x y, P x y -> Q x y) -> Forall2 P a b -> Forall2 Q a b.
Proof. intros H. induction 1; constructor; auto. Qed.
Definition corner (ids : list Z) (x v : Z) : Prop := 0 <= x /\ nth_error ids (Z.to_nat x) = Some v.
Lemma corner_prefix a b x v : prefix a b -> corner a x v -> corner b x v.
Proof. intros P (H & E). split; [exact H|]. eapply prefix_nth; eassumption. Qed.
Lemma useVertices_ok n vs : forall seen used count, used_inv n seen used count -> (forall v, In v vs -> 1 <= v <= Z.of_nat n) ->
  exists xs seen' used' count', useVertices (used, count) vs = Ok (xs, (used', count')) /\ used_inv n seen' used' count' /\ prefix seen seen' /\
    Forall2 (corner seen') xs vs /\ (forall w, In w seen' -> In w seen \/ In w vs).
Proof.
  induction vs as [|v vs IH]; intros seen used count I R.
  - exists [], seen, used, count. split; [reflexivity|]. split; [exact I|]. split; [apply prefix_refl|]. split; [constructor|]. intros w W. now left.
  - destruct (useVertex_ok I (R v (or_introl eq_refl))) as (x & s1 & u1 & c1 & E1 & I1 & P1 & X1 & X2 & X3).
    destruct (IH s1 u1 c1 I1 (fun w W => R w (or_intror W))) as (xs & s2 & u2 & c2 & E2 & I2 & P2 & F2 & X4).
    exists (x :: xs), s2, u2, c2. cbn [useVertices]. rewrite E1. cbn [bind]. rewrite E2. cbn [bind]. split; [reflexivity|]. split; [exact I2|]. split; [eapply prefix_trans; eassumption|]. split.
    + constructor; [|exact F2]. eapply corner_prefix; [exact P2|]. split; assumption.
    + intros w W. destruct (X4 w W) as [W1|W1]; [|right; now right]. destruct (X3 w W1) as [W2| ->]; [now left|right; now left].
Qed.
Definition triNodes (t : triangle) : list Z := snd (fst t).
Lemma useElements_ok n (ts : list triangle) : forall seen used count, used_inv n seen used count -> (forall t v, In t ts -> In v (triNodes t) -> 1 <= v <= Z.of_nat n) ->
  exists es seen' used' count', useElements (used, count) ts = Ok (es, (used', count')) /\ used_inv n seen' used' count' /\ prefix seen seen' /\
    Forall2 (fun xs t => Forall2 (corner seen') xs (triNodes t)) es ts /\ (forall w, In w seen' -> In w seen \/ exists t, In t ts /\ In w (triNodes t)).
Proof.
  induction ts as [|((i & vs) & d) ts IH]; intros seen used count I R.
  - exists [], seen, used, count. split; [reflexivity|]. split; [exact I|]. split; [apply prefix_refl|]. split; [constructor|]. intros w W. now left.
  - destruct (useVertices_ok (vs := vs) I (fun v W => R (i, vs, d) v (or_introl eq_refl) W)) as (xs & s1 & u1 & c1 & E1 & I1 & P1 & F1 & X1).
    destruct (IH s1 u1 c1 I1 (fun t v T => R t v (or_intror T))) as (es & s2 & u2 & c2 & E2 & I2 & P2 & F2 & X2).
    cbn [triNodes snd fst] in E1. exists (xs :: es), s2, u2, c2. cbn [useElements]. rewrite E1. cbn [bind]. rewrite E2. cbn [bind]. split; [reflexivity|]. split; [exact I2|]. split; [eapply prefix_trans; eassumption|]. split.
    + constructor; [|exact F2]. cbn [triNodes fst snd]. eapply Forall2_imp; [|exact F1]. intros a b. apply corner_prefix, P2.
    + intros w W. destruct (X2 w W) as [W1|(t & T & W1)]; [|right; exists t; split; [now right|exact W1]]. destruct (X1 w W1) as [W2|W2]; [now left|].
      right. exists (i, vs, d). split; [now left|exact W2].
Qed.

(** argsort: the positions with entries >= 0 come last, in order *)
Lemma argsort_tail argsort n seen used count : argsortOk argsort -> used_inv n seen used count ->
  skipn (List.length (argsort used) - Z.to_nat count) (argsort used) = map (fun v => Z.to_nat (v - 1)) seen.
Proof.
  intros A I. destruct (A used) as (P & S). set (o := argsort used) in *. set (m := List.length seen).
  assert (Lo : List.length o = n). { rewrite (Permutation_length P), seq_length. apply (ui_len I). }
  assert (M : (m <= n)%nat) by apply (ui_le I). assert (C : Z.to_nat count = m) by (rewrite (ui_count I); apply Nat2Z.id).
  assert (V : map (fun i => nth i used 0) o = repeat (-1) (n - m) ++ map Z.of_nat (seq 0 m)).
  { apply sorted_unique.
    - clear -S. induction S as [|a l _ IH F]; [constructor|]. cbn [map]. constructor; [exact IH|]. apply Forall_forall. intros z Z. apply in_map_iff in Z as (i & <- & Ii). rewrite Forall_forall in F. apply F, Ii.
    - assert (B : forall k c, StronglySorted Z.le (map Z.of_nat (seq k c)) /\ Forall (fun z => Z.of_nat k <= z) (map Z.of_nat (seq k c))).
      { intros k c. revert k. induction c as [|c IH]; intros k; [split; constructor|]. destruct (IH (Datatypes.S k)) as (B1 & B2). cbn [seq map]. split.
        - constructor; [exact B1|]. eapply Forall_impl; [|exact B2]. cbn. lia.
        - constructor; [lia|]. eapply Forall_impl; [|exact B2]. cbn. lia. }
      destruct (B 0%nat m) as (B1 & B2). generalize (n - m)%nat as c. induction c as [|c IH]; [exact B1|]. cbn [repeat app]. constructor; [exact IH|].
      apply Forall_app. split. { apply Forall_forall. intros z Z. apply repeat_spec in Z. lia. } eapply Forall_impl; [|exact B2]. cbn. lia.
    - eapply Permutation_trans; [apply Permutation_map, P|]. eapply Permutation_trans; [|apply (ui_perm I)].
      rewrite (ui_len I). assert (E : map (fun i => nth i used 0) (seq 0 n) = used); [|rewrite E; apply Permutation_refl].
      rewrite <- (ui_len I). clear. induction used as [|x l IH] using rev_ind; [reflexivity|]. rewrite app_length. cbn [List.length]. rewrite Nat.add_1_r, seq_S, map_app. cbn [map Nat.add].
      rewrite app_nth2, Nat.sub_diag by lia. cbn [nth]. f_equal. etransitivity; [|exact IH]. apply map_ext_in. intros i Hi. apply in_seq in Hi. apply app_nth1. lia. }
  rewrite Lo, C. apply nth_error_ext. intros k.
  destruct (Nat.ltb_spec k m) as [Lk|Lk].
  - destruct (nth_error seen k) as [v|] eqn:K; [|apply nth_error_None in K; fold m in K; lia].
    rewrite (map_nth_error (fun v => Z.to_nat (v - 1)) _ _ K).
    assert (Sk : forall l (j : nat), nth_error (skipn j l) k = @nth_error nat l (j + k)).
    { clear. intros l j. revert l. induction j as [|j IH]; intros [|x l]; cbn [skipn Nat.add nth_error]; try reflexivity; [destruct k; reflexivity|apply IH]. }
    rewrite Sk. destruct (nth_error o (n - m + k)) as [i|] eqn:O; [|apply nth_error_None in O; lia]. f_equal.
    assert (Vi : nth i used 0 = Z.of_nat k).
    { apply (map_nth_error (fun i => nth i used 0)) in O. rewrite V in O. rewrite nth_error_app2 in O by (rewrite repeat_length; lia).
      rewrite repeat_length in O. replace (n - m + k - (n - m))%nat with k in O by lia. rewrite (map_nth_error Z.of_nat k (seq 0 m) (d := k)) in O; [congruence|].
      rewrite nth_error_nth' with (d := 0%nat) by (rewrite seq_length; exact Lk). rewrite seq_nth by exact Lk. reflexivity. }
    assert (Ii : (i < n)%nat). { apply nth_error_In in O. eapply Permutation_in in O; [|exact P]. apply in_seq in O. rewrite (ui_len I) in O. lia. }
    assert (Ui : nth_error used i = Some (Z.of_nat k)). { rewrite nth_error_nth' with (d := 0) by (rewrite (ui_len I); exact Ii). congruence. }
    destruct (in_dec Z.eq_dec (Z.of_nat i + 1) seen) as [Y|Y].
    + apply In_nth_error in Y as (k' & K'). assert (X := ui_seen I K'). replace (Z.to_nat (Z.of_nat i + 1 - 1)) with i in X by lia.
      assert (k' = k) by (rewrite Ui in X; inversion X; lia). subst k'. rewrite K in K'. inversion K'; subst. lia.
    + assert (X := @ui_new _ _ _ _ I (Z.of_nat i + 1) ltac:(lia) Y). replace (Z.to_nat (Z.of_nat i + 1 - 1)) with i in X by lia. rewrite Ui in X. inversion X. lia.
  - transitivity (@None nat); [|symmetry]; apply nth_error_None. { rewrite skipn_length. lia. } rewrite map_length. exact Lk.
Qed.
Lemma contiguous_ok {P : Type} (nodes : list (Z * P)) c : (forall k n, nth_error nodes k = Some n -> fst n = Z.of_nat k + c) -> contiguous (map fst nodes) = true.
Proof.
  revert c. induction nodes as [|a [|b l] IH]; intros c H; try reflexivity. cbn [map contiguous]. apply andb_true_iff. split.
  - apply Z.eqb_eq. rewrite (H 0%nat a eq_refl), (H 1%nat b eq_refl). replace (Z.of_nat 1 + c - (Z.of_nat 0 + c)) with 1 by lia. reflexivity.
  - apply (IH (c + 1)). intros k n K. rewrite (H (S k) n K). lia.
Qed.
Lemma mapM_ok {A B} (f : A -> res B) (g : A -> B) l : (forall a, In a l -> f a = Ok (g a)) -> mapM f l = Ok (map g l).
Proof.
  induction l as [|a l IH]; intros H; [reflexivity|]. cbn [mapM map]. rewrite (H a (or_introl eq_refl)). cbn [bind]. rewrite IH by (intros b Hb; apply H; now right). reflexivity.
Qed.

Lemma Forall2_len {A B} (R : A -> B -> Prop) a b : Forall2 R a b -> List.length a = List.length b.
Proof. induction 1; cbn [List.length]; congruence. Qed.
Lemma Forall2_nth_r {A B} (R : A -> B -> Prop) la lb k b : Forall2 R la lb -> nth_error lb k = Some b -> exists a, nth_error la k = Some a /\ R a b.
Proof. intros H. revert k. induction H as [|x y la lb Hxy _ IH]; intros [|k] K; try discriminate K; [inversion K; subst; exists x; split; [reflexivity|exact Hxy]|apply IH, K]. Qed.

Section Io.
Variables (io : floatIO) (argsort : list Z -> list nat).
Hypothesis A : argsortOk argsort.

Lemma create_ok (nodes : list (Z * point io)) (tris : list element) b sz : nodes <> [] -> numbered nodes -> tris <> [] -> (forall t, In t tris -> triangleOk nodes t) ->
  exists g, createGrid argsort (Parsed (Some nodes) (Some (map triangleData tris)) b sz) = Ok g /\ describes nodes tris g.
Proof.
  intros N (NL & NU) T TO. set (n := List.length nodes).
  destruct (@useElements_ok n (map triangleData tris) [] (repeat (-1) n) 0 (used_start n)) as (es & seen & used & count & E & I & _ & F & U).
  { intros t v It Iv. apply in_map_iff in It as (e & <- & Ie). apply (TO e Ie), Iv. }
  assert (Cpos : count <> 0).
  { rewrite (ui_count I). destruct tris as [|t tris]; [congruence|]. destruct (TO t (or_introl eq_refl)) as (_ & _ & L & _). 
    inversion F as [|xs t0 es0 ts0 Hx _]; subst. cbn [triNodes triangleData fst snd] in Hx. destruct (e_nodes t) as [|v0 vs]; [discriminate L|].
    inversion Hx as [|x0 ? ? ? (_ & Hc) _]; subst. apply nth_error_In in Hc. destruct seen; [destruct Hc|cbn; lia]. }
  assert (D : exists d, hd_error nodes = Some d) by (destruct nodes as [|d r]; [congruence|exists d; reflexivity]). destruct D as (d & D).
  set (node := fun v : Z => nth (Z.to_nat (v - 1)) nodes d).
  assert (Node : forall v, In v seen -> nth_error nodes (Z.to_nat (v - 1)) = Some (node v)).
  { intros v Hv. assert (R := ui_range I Hv). apply nth_error_nth'. lia. }
  assert (Pk : forall (B : Type) (f : Z * point io -> B), pick (map f nodes) (map (fun v => Z.to_nat (v - 1)) seen) = Ok (map (fun v => f (node v)) seen)).
  { intros B f. unfold pick. assert (X := @mapM_ok Z B (fun v => get (nth_error (map f nodes) (Z.to_nat (v - 1)))) (fun v => f (node v)) seen).
    rewrite <- X.
    - generalize seen as l. induction l as [|v l IH]; [reflexivity|]. cbn [map mapM]. rewrite IH. reflexivity.
    - intros v Hv. rewrite (map_nth_error f _ _ (Node v Hv)). reflexivity. }
  assert (Id : forall v, In v seen -> fst (node v) = v).
  { intros v Hv. assert (R := ui_range I Hv). rewrite (NU _ _ (Node v Hv)). lia. }
  unfold createGrid. cbn [p_nodes p_elems get bind]. rewrite D. cbn [get bind].
  assert (fst d =? 1 = true) as ->. { apply Z.eqb_eq. destruct nodes as [|d' r]; [congruence|]. inversion D; subst. rewrite (NU 0%nat d eq_refl). lia. }
  rewrite (contiguous_ok (c := 1) NU). cbn [negb orb]. fold n. rewrite E. cbn [bind].
  destruct (Z.eqb_spec count 0) as [C0|_]; [congruence|]. rewrite (argsort_tail A I), !Pk. cbn [bind andb].
  assert (Cn : Z.to_nat count = List.length seen) by (rewrite (ui_count I); apply Nat2Z.id).
  rewrite Cn. rewrite !firstn_all2 by (rewrite map_length; apply le_n).
  assert (Ids : map (fun v => fst (node v)) seen = seen). { rewrite <- (map_id seen) at 2. apply map_ext_in. exact Id. }
  rewrite Ids. eexists. split; [reflexivity|]. rewrite !map_map. constructor; cbn [g_elements g_element_ids g_domain_indices g_vertices g_vertex_ids].
  - rewrite (Forall2_len F), map_length. reflexivity.
  - apply map_ext_in. intros t Ht. destruct (TO t Ht) as (U1 & _). cbn [triangleData fst]. apply Z.mod_small, U1.
  - apply map_ext_in. intros t Ht. destruct (TO t Ht) as (_ & (tag & r & Et & U1) & _). cbn [triangleData snd]. rewrite Et. cbn [hd]. apply Z.mod_small, U1.
  - apply map_length.
  - apply (ui_nodup I).
  - intros k i p Ki Kp. rewrite (map_nth_error (fun v => snd (node v)) _ _ Ki) in Kp. inversion Kp; subst p.
    assert (Hi := nth_error_In _ _ Ki). assert (X := nth_error_In _ _ (Node i Hi)). rewrite <- (Id i Hi) at 1. destruct (node i); exact X.
  - intros k t Kt. apply (map_nth_error triangleData) in Kt. destruct (Forall2_nth_r F Kt) as (xs & Kx & Hx). exists xs. split; [exact Kx|exact Hx].
  - intros i Hi. destruct (U i Hi) as [[]|(t & Ht & Hit)]. apply in_map_iff in Ht as (e & <- & He). exists e. split; assumption.
Qed.
End Io.
