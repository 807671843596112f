From Verif Require Import Base RangeModel RangeProofs.
Local Open Scope Z_scope.

(** C50: whatever the history of splits, running the loop over every resulting range ends after
    size() rounds and the ranges together visit each of begin, begin+step, ... below end exactly once. *)
Theorem C50_scattered_range (r : srange) (parts : list srange) :
  0 <= r_begin r -> 0 < r_step r -> r_begin r <= r_end r <= 2 ^ 62 -> r_begin r + r_step r < 2 ^ 64 ->
  splitsInto r parts ->
  exists visited : list (list Z),
    Forall2 (fun q v => loopFrom q (Z.to_nat (r_size q)) (r_begin q) = Some v /\ Z.of_nat (length v) = r_size q) parts visited /\
    NoDup (concat visited) /\
    (forall z, In z (concat visited) <-> exists k, 0 <= k /\ z = r_begin r + k * r_step r /\ z < r_end r).
Proof.
  intros H1 H2 H3 H4 S. assert (V : validRange r) by (repeat split; lia || assumption). destruct (splits_ok S V) as (P & Q & _).
  exists (map elems parts). split; [|split].
  - clear P S. induction parts as [|q l IH]; cbn; constructor.
    + assert (Vq : validRange q) by (apply Q; now left). split; [exact (loop_elems Vq)|]. unfold elems. rewrite upto_length, Z2Nat.id; [reflexivity|]. apply (size_spec Vq).
    + apply IH. intros; apply Q; now right.
  - rewrite <- flat_map_concat_map. eapply Permutation_NoDup; [symmetry; exact P|]. now apply elems_NoDup.
  - intros z. rewrite <- flat_map_concat_map. rewrite <- (in_elems z V). split; apply Permutation_in; [exact P|symmetry; exact P].
Qed.
Print Assumptions C50_scattered_range.
(** a range is divisible iff it has at least two elements; splits never create empty parts *)
Theorem C50_grain (r : srange) :
  0 <= r_begin r -> 0 < r_step r -> r_begin r <= r_end r <= 2 ^ 62 -> r_begin r + r_step r < 2 ^ 64 ->
  (is_divisible r = true <-> 2 <= r_size r) /\
  (forall parts, r_begin r < r_end r -> splitsInto r parts -> forall q, In q parts -> 1 <= r_size q /\ r_empty q = false).
Proof.
  intros H1 H2 H3 H4. assert (V : validRange r) by (repeat split; lia || assumption). destruct (size_spec V) as [Hs Hk]. split.
  - rewrite (divisible_iff V). split.
    + intros (a & b & Hne & (k & Hk1 & Ea & La) & (m & Hm & Eb & Lb)). rewrite Ea in La. rewrite Eb in Lb. apply Hk in La; [|assumption]. apply Hk in Lb; [|assumption].
      assert (k <> m) by congruence. lia.
    + intros H. exists (r_begin r), (r_begin r + r_step r). split; [lia|]. split; [exists 0|exists 1]; (split; [lia|]); (split; [lia|]).
      * assert (r_begin r + 0 * r_step r < r_end r) by (apply Hk; lia). lia.
      * assert (r_begin r + 1 * r_step r < r_end r) by (apply Hk; lia). lia.
  - intros parts L S q Hq. destruct (splits_ok S V) as (_ & Q & N).
    assert (X : elems q <> []). { apply N; [|exact Hq]. intros E. assert (Y : In (r_begin r) (elems r)) by (apply in_elems; [assumption|]; exists 0; lia). rewrite E in Y. destruct Y. }
    assert (Sz : 1 <= r_size q). { unfold elems in X. destruct (size_spec (Q q Hq)) as [Hq0 _]. destruct (Z.to_nat (r_size q)) eqn:E; [now destruct X|]. lia. }
    split; [exact Sz|]. destruct (r_empty q) eqn:E; [|reflexivity]. unfold r_size in Sz. rewrite E in Sz. lia.
Qed.
Print Assumptions C50_grain.
Example C50_instance : splitsInto (SRange 3 10 1) [SRange 3 10 4; SRange 5 10 4; SRange 4 10 2] /\
  loopFrom (SRange 5 10 4) 2 5 = Some [5; 9].
Proof.
  split; [|reflexivity].
  apply (@sp_node (SRange 3 10 1) [SRange 3 10 4; SRange 5 10 4] [SRange 4 10 2]); [reflexivity| |constructor].
  apply (@sp_node (SRange 3 10 2) [SRange 3 10 4] [SRange 5 10 4]); [reflexivity| |]; constructor.
Qed.
