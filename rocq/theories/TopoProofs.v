From Coq Require Import Reals ZArith List Lia Permutation.
Import ListNotations.
From Verif Require Import Base ArrayModel QuadModel QuadSpec.
Set Implicit Arguments.

Lemma firstMatch_some test c k i : firstMatch test c k = Some i -> exists i', i = k + i' /\ nth_error test i' = Some c.
Proof.
  revert k. induction test as [|v r IH]; intros k; cbn [firstMatch]; [discriminate|].
  destruct (Z.eqb_spec v c) as [->|N].
  - injection 1 as <-. exists 0. split; [lia|reflexivity].
  - intros H. destruct (IH _ H) as (i' & -> & E). exists (S i'). split; [lia|exact E].
Qed.
Lemma firstMatch_none test c k : firstMatch test c k = None <-> ~ In c test.
Proof.
  revert k. induction test as [|v r IH]; intros k; cbn [firstMatch]; [cbn; tauto|].
  destruct (Z.eqb_spec v c) as [->|N].
  - split; [discriminate|]. intros H. exfalso. apply H. now left.
  - rewrite IH. cbn. tauto.
Qed.
Lemma nodup_nth (l : list Z) i j v : NoDup l -> nth_error l i = Some v -> nth_error l j = Some v -> i = j.
Proof.
  intros N Hi Hj. assert (i < length l) by (apply nth_error_Some; congruence).
  eapply (proj1 (NoDup_nth_error l) N); [assumption|congruence].
Qed.
Lemma hitsFrom_in test trial k i j : NoDup test -> (In (i, j) (hitsFrom test trial k) <->
  exists j' v, j = k + j' /\ nth_error trial j' = Some v /\ nth_error test i = Some v).
Proof.
  intros N. revert k. induction trial as [|c r IH]; intros k; cbn [hitsFrom].
  - split; [intros []|]. intros (j' & v & _ & E & _). destruct j'; discriminate E.
  - destruct (firstMatch test c 0) as [a|] eqn:F.
    + destruct (firstMatch_some _ _ _ F) as (a' & E1 & E2). cbn in E1. subst a. cbn [In]. rewrite IH. split.
      * intros [E|(j' & v & -> & A & B)]; [injection E as <- <-|].
        -- exists 0, c. split; [lia|]. split; [reflexivity|exact E2].
        -- exists (S j'), v. split; [lia|]. split; [exact A|exact B].
      * intros (j' & v & -> & A & B). destruct j' as [|j'].
        -- left. cbn in A. injection A as <-. f_equal; [exact (nodup_nth _ _ N E2 B)|lia].
        -- right. exists j', v. split; [lia|]. split; [exact A|exact B].
    + rewrite IH. apply firstMatch_none in F. split.
      * intros (j' & v & -> & A & B). exists (S j'), v. split; [lia|]. split; [exact A|exact B].
      * intros (j' & v & -> & A & B). destruct j' as [|j'].
        -- exfalso. cbn in A. injection A as <-. apply F. eapply nth_error_In; eauto.
        -- exists j', v. split; [lia|]. split; [exact A|exact B].
Qed.
Lemma hits_in test trial i j : NoDup test -> (In (i, j) (hits test trial) <->
  exists v, nth_error test i = Some v /\ nth_error trial j = Some v).
Proof.
  intros N. unfold hits. rewrite (@hitsFrom_in _ _ _ _ _ N). split.
  - intros (j' & v & -> & A & B). exists v. split; assumption.
  - intros (v & A & B). exists j, v. split; [reflexivity|]. split; assumption.
Qed.
Lemma hits_length test trial k : length (hitsFrom test trial k) = commonVertices test trial.
Proof.
  unfold commonVertices. revert k. induction trial as [|c r IH]; intros k; cbn [hitsFrom filter]; [reflexivity|].
  destruct (in_dec Z.eq_dec c test) as [I|I].
  - destruct (firstMatch test c 0) eqn:F; [cbn; now rewrite IH|]. apply firstMatch_none in F. contradiction.
  - destruct (firstMatch test c 0) eqn:F; [|apply IH]. exfalso. apply I. destruct (firstMatch_some _ _ _ F) as (i' & _ & E). eapply nth_error_In; eauto.
Qed.
Lemma hits_sorted test trial k i j : In (i, j) (hitsFrom test trial k) -> k <= j.
Proof.
  revert k. induction trial as [|c r IH]; intros k; cbn [hitsFrom]; [intros []|].
  destruct (firstMatch test c 0); [|intros H; apply IH in H; lia]. intros [E|H]; [injection E as _ <-; lia|]. apply IH in H. lia.
Qed.
Lemma hits_nodup test trial k : NoDup (hitsFrom test trial k).
Proof.
  revert k. induction trial as [|c r IH]; intros k; cbn [hitsFrom]; [constructor|].
  destruct (firstMatch test c 0); [|apply IH]. constructor; [|apply IH]. intros H. apply hits_sorted in H. lia.
Qed.
Lemma common_le test trial : commonVertices test trial <= length trial.
Proof. unfold commonVertices. apply filter_length_le. Qed.

Lemma sameVertex_hit test trial i j : NoDup test -> In (i, j) (hits test trial) -> sameVertex test trial (Z.of_nat i) (Z.of_nat j).
Proof.
  intros N H. apply (@hits_in _ _ _ _ N) in H. destruct H as (v & A & B). unfold sameVertex. rewrite !Nat2Z.id.
  split; [lia|]. split; [lia|]. exists v. now split.
Qed.
Lemma hits_swap test trial : NoDup test -> NoDup trial ->
  Permutation (hits trial test) (map (fun p => (snd p, fst p)) (hits test trial)).
Proof.
  intros N M. apply NoDup_Permutation.
  - apply hits_nodup.
  - apply FinFun.Injective_map_NoDup; [|apply hits_nodup]. intros [a b] [c d]. cbn. congruence.
  - intros [i j]. rewrite (@hits_in _ _ _ _ M), in_map_iff. split.
    + intros (v & A & B). exists (j, i). split; [reflexivity|]. apply (@hits_in _ _ _ _ N). exists v. now split.
    + intros ([a b] & E & H). cbn in E. injection E as <- <-. apply (@hits_in _ _ _ _ N) in H. destruct H as (v & A & B). exists v. now split.
Qed.
