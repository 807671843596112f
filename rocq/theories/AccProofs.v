From Coq Require Import Reals ZArith List Bool Lia Permutation Sorted.
Import ListNotations.
From Verif Require Import Base ArrayModel BoxModel QuadModel AccModel AccSpec.
Set Implicit Arguments.

Lemma dle_iff a b : dle a b = true <-> dLe a b.
Proof. destruct a, b; cbn; [destruct (Rle_dec x x0) | | |]; intuition congruence. Qed.
Lemma dle_false a b : dle a b = false <-> ~ dLe a b.
Proof. rewrite <- dle_iff. destruct (dle a b); intuition congruence. Qed.
Lemma dLe_trans a b c : dLe a b -> dLe b c -> dLe a c.
Proof. destruct a, b, c; cbn; intuition (eauto using Rle_trans). Qed.
Lemma dLe_total a b : ~ dLe a b -> dLe b a.
Proof. destruct a, b; cbn; try tauto. intros H. apply Rlt_le, Rnot_le_lt. assumption. Qed.
Lemma dLe_refl a : dLe a a.
Proof. destruct a; cbn; auto. apply Rle_refl. Qed.
Lemma deq_iff a b : deq a b = true <-> a = b.
Proof.
  unfold deq. rewrite andb_true_iff, !dle_iff. split; [| intros ->; split; apply dLe_refl].
  destruct a, b; cbn; try tauto. intros (A & B). f_equal. apply Rle_antisym; assumption.
Qed.
Lemma distinct_iff l : distinct l = true <-> NoDup (map fst l).
Proof.
  induction l as [|v r IH]; cbn; [split; constructor|].
  rewrite andb_true_iff, negb_true_iff, IH, NoDup_cons_iff. split; intros (H & H'); split; auto.
  - intros Hi. apply in_map_iff in Hi as (y & E & Hy).
    assert (existsb (fun y => deq (fst v) (fst y)) r = true) by (apply existsb_exists; exists y; split; auto; apply deq_iff; auto).
    congruence.
  - apply not_true_is_false. intros Hx. apply existsb_exists in Hx as (y & Hy & E). apply deq_iff in E.
    apply H. rewrite E. apply in_map. assumption.
Qed.
Definition bsorted (l : list bracket) := StronglySorted (fun a b => dLe (fst a) (fst b)) l.
Lemma sortInsert_perm v l : Permutation (v :: l) (sortInsert v l).
Proof.
  induction l as [|y r IH]; cbn; auto. destruct (dle (fst v) (fst y)); auto.
  etransitivity; [apply perm_swap|]. constructor. assumption.
Qed.
Lemma sortInsert_sorted v l : bsorted l -> bsorted (sortInsert v l).
Proof.
  induction l as [|y r IH]; cbn; intros H; [repeat constructor|].
  apply StronglySorted_inv in H as (Hr & Hy).
  destruct (dle (fst v) (fst y)) eqn:E.
  - apply dle_iff in E. constructor; [constructor; auto|]. constructor; auto.
    eapply Forall_impl; [| exact Hy]. intros a Ha. eapply dLe_trans; eauto.
  - apply dle_false, dLe_total in E. constructor; [apply IH; auto|].
    apply (Permutation_Forall (sortInsert_perm v r)). constructor; auto.
Qed.
Lemma sortAll_gen l acc : bsorted acc ->
  bsorted (fold_left (fun acc v => sortInsert v acc) l acc) /\
  Permutation (l ++ acc) (fold_left (fun acc v => sortInsert v acc) l acc).
Proof.
  revert acc. induction l as [|v l IH]; cbn; intros acc H; [auto|].
  destruct (IH (sortInsert v acc) (sortInsert_sorted v H)) as (A & B). split; auto.
  etransitivity; [| exact B]. etransitivity; [apply Permutation_middle|].
  apply Permutation_app_head. apply sortInsert_perm.
Qed.
Lemma sortAll_ok l : bsorted (sortAll l) /\ Permutation l (sortAll l).
Proof.
  destruct (@sortAll_gen l [] ltac:(constructor)) as (A & B). split; auto. rewrite app_nil_r in B. assumption.
Qed.
Lemma stdSort_ok l : manageable l -> stdSort l = Ok (sortAll l).
Proof.
  intros H. unfold stdSort. replace ((length l <=? 16)%nat || distinct l) with true; auto. symmetry.
  apply orb_true_iff. destruct H as [H | H]; [left; apply Nat.leb_le; auto | right; apply distinct_iff; auto].
Qed.
Lemma stdSort_undefined l : ~ manageable l -> stdSort l = Undefined.
Proof.
  intros H. unfold stdSort. replace ((length l <=? 16)%nat || distinct l) with false; auto. symmetry.
  apply orb_false_iff. split.
  - apply Nat.leb_gt. apply Nat.nle_gt. intros X. apply H. left. assumption.
  - apply not_true_is_false. intros X. apply H. right. apply distinct_iff. assumption.
Qed.

(** look-up *)
Lemma lookup_throws l d : lookup l d = Throws <-> forall m o, In (m, o) l -> ~ dLe d m.
Proof.
  induction l as [|[x o] r IH]; cbn; [intuition|].
  destruct (dle d x) eqn:E.
  - apply dle_iff in E. split; [discriminate|]. intros H. exfalso. exact (H x o (or_introl eq_refl) E).
  - apply dle_false in E. rewrite IH. split.
    + intros H m o' [X | X]; [injection X as <- <-; auto | eauto].
    + intros H m o' X. eauto.
Qed.
Lemma lookup_cases l d : lookup l d = Throws \/ exists o, lookup l d = Ok o.
Proof. induction l as [|[x o] r IH]; cbn; [auto|]. destruct (dle d x); eauto. Qed.
Lemma lookup_sorted l d o : bsorted l -> lookup l d = Ok o -> narrowest l d o.
Proof.
  induction l as [|[x p] r IH]; cbn; intros H; [discriminate|].
  apply StronglySorted_inv in H as (Hr & Hy).
  destruct (dle d x) eqn:E.
  - intros X. injection X as ->. apply dle_iff in E. exists x. split; [left; auto|]. split; auto.
    intros m' o' [X | X] _; [injection X as <- _; apply dLe_refl|].
    rewrite Forall_forall in Hy. apply (Hy _ X).
  - intros X. apply dle_false in E. destruct (IH Hr X) as (m & A & B & C). exists m. split; [right; auto|]. split; auto.
    intros m' o' [Y | Y] Hd; [injection Y as <- _; contradiction | eauto].
Qed.
Lemma lookup_app a b d : lookup (a ++ b) d = match lookup a d with Throws => lookup b d | x => x end.
Proof. induction a as [|[x o] r IH]; cbn; [reflexivity|]. destruct (dle d x); auto. Qed.
Lemma lookup_kept r : forall v d, ~ dLe d (fst v) -> lookup (kept v r) d = lookup r d.
Proof.
  induction r as [|[x o] r IH]; cbn; intros v d H; [reflexivity|].
  destruct (deq (fst v) x) eqn:E.
  - apply deq_iff in E. destruct (dle d x) eqn:E2; [apply dle_iff in E2; rewrite E in H; contradiction | apply IH; auto].
  - cbn. destruct (dle d x) eqn:E2; auto. apply IH. cbn. apply dle_false. assumption.
Qed.
Lemma skipn_in {A} n (l : list A) x : In x (skipn n l) -> In x l.
Proof. intros H. rewrite <- (firstn_skipn n l). apply in_or_app. right. assumption. Qed.
Lemma lookup_unique (l : list bracket) d : lookup (stdUnique l) d = lookup l d.
Proof.
  destruct l as [|v r]; [reflexivity|]. unfold stdUnique. cbv zeta. rewrite lookup_app.
  assert (E : lookup (v :: kept v r) d = lookup (v :: r) d).
  { destruct v as [x o]. cbn. destruct (dle d x) eqn:E; auto. apply lookup_kept. cbn. apply dle_false. assumption. }
  rewrite E. destruct (lookup_cases (v :: r) d) as [T | (o' & T)]; rewrite T; [|reflexivity].
  apply lookup_throws. intros m o' Hi. apply skipn_in in Hi. revert m o' Hi. apply lookup_throws. assumption.
Qed.
Lemma kept_length r : forall v, length (kept v r) <= length r.
Proof. induction r as [|y r IH]; cbn; intros v; auto. destruct (deq (fst v) (fst y)); cbn; [specialize (IH v)|specialize (IH y)]; lia. Qed.
Lemma kept_full r : forall v, length (kept v r) = length r -> kept v r = r.
Proof.
  induction r as [|y r IH]; cbn; intros v H; auto. destruct (deq (fst v) (fst y)).
  - pose proof (kept_length r v). lia.
  - cbn in H. f_equal. apply IH. lia.
Qed.
Lemma unique_last l i x : l = i ++ [x] -> exists j, stdUnique l = j ++ [x].
Proof.
  intros ->. destruct (i ++ [x]) as [|v r] eqn:E; [destruct i; discriminate|].
  unfold stdUnique. cbv zeta. rewrite <- E. set (k := v :: kept v r).
  assert (L : length k <= length (i ++ [x])). { rewrite E. cbn. pose proof (kept_length r v). lia. }
  destruct (Nat.eq_dec (length k) (length (i ++ [x]))) as [X | X].
  - exists i. rewrite skipn_all2 by lia. rewrite app_nil_r, E. unfold k. f_equal. apply kept_full. rewrite E in X. cbn in X. lia.
  - assert (L' : length k <= length i) by (rewrite app_length in *; cbn [length] in *; lia).
    rewrite skipn_app. replace (length k - length i)%nat with 0%nat by lia.
    exists (k ++ skipn (length k) i). cbn [skipn]. rewrite app_assoc. reflexivity.
Qed.
Lemma narrowest_perm l l' d o : Permutation l l' -> narrowest l d o -> narrowest l' d o.
Proof.
  intros P (m & A & B & C). exists m. split; [eapply Permutation_in; eauto|]. split; auto.
  intros m' o' Hi. apply C with o'. eapply Permutation_in; [apply Permutation_sym|]; eauto.
Qed.
Lemma sorted_last l i m o : l = i ++ [(m, o)] -> bsorted l -> widest l o.
Proof.
  intros -> H. exists m. split; [apply in_or_app; right; left; auto|].
  revert H. induction i as [|[x p] i IH]; cbn; intros H m' o' Hi.
  - destruct Hi as [X | []]. injection X as <- _. apply dLe_refl.
  - apply StronglySorted_inv in H as (Hr & Hy). destruct Hi as [X | X]; [| eauto].
    injection X as <- <-. rewrite Forall_forall in Hy. apply (Hy (m, o)). apply in_or_app. right. left. auto.
Qed.
Lemma requested_eq ds os rel x r : length os = S (length ds) -> rev os = x :: r ->
  combine ds (map (fun o => QOpt rel o) os) ++ [(Inf, QOpt rel x)] = requested ds os rel.
Proof.
  intros L E. assert (Eo : os = rev r ++ [x]) by (rewrite <- (rev_involutive os), E; reflexivity).
  subst os. unfold requested. rewrite app_length in L. cbn in L.
  rewrite map_app. cbn. assert (L' : length ds = length (map (fun o => QOpt rel o) (rev r))) by (rewrite map_length; lia).
  revert L'. generalize (map (fun o => QOpt rel o) (rev r)). clear. induction ds as [|d ds IH]; intros [|y l]; cbn; intros H; try discriminate; auto.
  f_equal. apply IH. lia.
Qed.
Lemma requested_inf ds os rel : length os = S (length ds) -> exists o, In (Inf, o) (requested ds os rel).
Proof.
  intros L. destruct (rev os) as [|x r] eqn:E.
  - apply (f_equal (@length _)) in E. rewrite rev_length in E. cbn in E. lia.
  - rewrite <- (@requested_eq ds os rel x r L E). eexists. apply in_or_app. right. left. reflexivity.
Qed.
Lemma setOrders_ok ds os rel : length os = S (length ds) -> (Z.of_nat (length os) < 2 ^ 64)%Z ->
  setOrders ds os rel = bind (stdSort (requested ds os rel)) (fun s => Ok (stdUnique s)).
Proof.
  intros L B. unfold setOrders.
  replace ((Z.of_nat (length os) - 1) mod 2 ^ 64)%Z with (Z.of_nat (length ds)) by (rewrite Z.mod_small; lia).
  rewrite Z.eqb_refl. cbn [negb]. destruct (rev os) as [|x r] eqn:E.
  - apply (f_equal (@length _)) in E. rewrite rev_length in E. cbn in E. lia.
  - rewrite (@requested_eq ds os rel x r L E). reflexivity.
Qed.
Lemma setOrders_throws ds os rel : length os <> S (length ds) -> (Z.of_nat (length ds) < 2 ^ 64 - 1)%Z -> (Z.of_nat (length os) < 2 ^ 64)%Z ->
  setOrders ds os rel = Throws.
Proof.
  intros L B B'. unfold setOrders.
  destruct (Z.eqb_spec (Z.of_nat (length ds)) ((Z.of_nat (length os) - 1) mod 2 ^ 64)%Z) as [E | E]; [|reflexivity].
  exfalso. destruct os as [|o os].
  - cbn in E. lia.
  - rewrite Z.mod_small in E by (cbn [length] in *; lia). cbn [length] in *. lia.
Qed.
Lemma topo_type ce cf t : determineTopology ce cf = Ok t ->
  t_type t = match length (hits ce cf) with 0 => Disjoint | 1 => SharedVertex | 2 => SharedEdge | _ => Coincident end%nat.
Proof.
  unfold determineTopology. destruct (4 <? length (hits ce cf))%nat; [discriminate|].
  destruct (hits ce cf) as [|[a b] [|[c d] [|x r]]]; cbn [length].
  - intros X; injection X as <-; reflexivity.
  - intros X; injection X as <-; reflexivity.
  - intros X; injection X as <-; reflexivity.
  - destruct (_ && _); [|discriminate]. intros X; injection X as <-; reflexivity.
Qed.
Lemma sqDist_sym p q : sqDist p q = sqDist q p.
Proof. unfold sqDist. ring. Qed.
