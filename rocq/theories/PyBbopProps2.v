(** C96: assignment of blocks *)
From Coq Require Import List Arith Bool ZArith Lia.
Import ListNotations.
From Verif Require Import Base ArrayModel AsmModel QuadModel MatAlg PyOpModel LocalCacheProofs PyOpSpec PyOpProofs PyBopModel PyBopSpec PyBopProofs PyBopProps PyBlockModel PyBlockSpec PyBlockProofs PyBlockProps PyBbopModel PyBbopSpec PyBbopProofs PyBbopHist PyBbopProps.
Set Implicit Arguments.

(** the block in row r and column c *)
Definition blockAt K (ops : list (list (option (blk K)))) (r c : nat) : option (blk K) :=
  match nth_error ops r with Some row => match nth_error row c with Some b => b | None => None end | None => None end.
(** an unset space agrees with every space *)
Definition agrees (s : option space) (t : space) : Prop := match s with Some s => t = s | None => True end.

(** op[r, c] = b changes block (r, c) of this operator only and records the spaces of b; it is rejected, and nothing changes, when
    the spaces of b differ from those already recorded for row r and column c *)
Theorem C96_assignment K (mass : space -> space -> mat K) cs i r c b ops ran dual dom sr sd sc :
  nth_error (nodes (brun mass cs)) i = Some (MBlk ops ran dual dom) ->
  nth_error ran r = Some sr -> nth_error dual r = Some sd -> nth_error dom c = Some sc ->
  let ns := nodes (brun mass (cs ++ [BSet i r c b])) in
  (agrees sr (b_ran b) /\ agrees sd (b_dual b) /\ agrees sc (b_dom b) ->
     (forall k, k <> i -> nth_error ns k = nth_error (nodes (brun mass cs)) k) /\
     exists ops' ran' dual' dom', nth_error ns i = Some (MBlk ops' ran' dual' dom') /\
       blockAt ops' r c = Some b /\ (forall r' c', (r', c') <> (r, c) -> blockAt ops' r' c' = blockAt ops r' c') /\
       nth_error ran' r = Some (Some (b_ran b)) /\ (forall k, k <> r -> nth_error ran' k = nth_error ran k) /\
       nth_error dual' r = Some (Some (b_dual b)) /\ (forall k, k <> r -> nth_error dual' k = nth_error dual k) /\
       nth_error dom' c = Some (Some (b_dom b)) /\ (forall k, k <> c -> nth_error dom' k = nth_error dom k)) /\
  (~ (agrees sr (b_ran b) /\ agrees sd (b_dual b) /\ agrees sc (b_dom b)) -> ns = nodes (brun mass cs)).
Proof.
  intros N Hr Hd Hc ns. pose proof (brun_older mass cs) as O. pose proof (O i _ N) as (L1 & L2 & L3 & _).
  assert (CL : forall s t, clash s t = false <-> agrees s t).
  { intros [s|] t; cbn; [|tauto]. rewrite negb_false_iff. split; [apply speq_eq|]. intros ->. unfold speq. rewrite !Nat.eqb_refl. reflexivity. }
  assert (exists row, nth_error ops r = Some row) as (row & Ho).
  { destruct (nth_error ops r) eqn:Q; [eauto|]. apply nth_error_None in Q. rewrite L1 in Q. apply nth_error_None in Q. congruence. }
  pose proof N as N0. rewrite nth_nodes in N0. destruct (nth_error (brun mass cs) i) as [o|] eqn:E; [|discriminate]. cbn in N0. injection N0 as N0.
  subst ns. assert (brun mass (cs ++ [BSet i r c b]) = bstep mass (brun mass cs) (BSet i r c b)) as ST by (unfold brun; rewrite fold_left_app; reflexivity).
  rewrite ST. clear ST. cbn [bstep]. rewrite E, N0. cbn [setItem]. rewrite Ho, Hr, Hd, Hc.
  assert (Lr : r <? length ran = true) by (apply Nat.ltb_lt, nth_error_Some; congruence).
  assert (Lo : r <? length ops = true) by (apply Nat.ltb_lt, nth_error_Some; congruence).
  assert (Ld : r <? length dual = true) by (apply Nat.ltb_lt, nth_error_Some; congruence).
  assert (Lc : c <? length dom = true) by (apply Nat.ltb_lt, nth_error_Some; congruence).
  assert (Lw : c <? length row = true) by (rewrite (L3 row (nth_error_In _ _ Ho)); assumption).
  assert (Ln : i <? length (nodes (brun mass cs)) = true) by (apply Nat.ltb_lt, nth_error_Some; congruence).
  split.
  - intros (A1 & A2 & A3). apply CL in A1, A2, A3. rewrite A1, A2, A3. cbn [orb]. rewrite nodes_set. split.
    + intros k NE. rewrite nth_setNth. apply Nat.eqb_neq in NE. rewrite NE. reflexivity.
    + do 4 eexists. split; [rewrite nth_setNth, Nat.eqb_refl, Ln; reflexivity|].
      assert (forall A (l : list A) j v, j <? length l = true -> nth_error (setNth l j v) j = Some v /\ forall k, k <> j -> nth_error (setNth l j v) k = nth_error l k) as W.
      { intros A l j v L. split; [rewrite nth_setNth, Nat.eqb_refl, L; reflexivity|]. intros k NE. rewrite nth_setNth. apply Nat.eqb_neq in NE. rewrite NE. reflexivity. }
      split; [unfold blockAt; rewrite (proj1 (W _ ops r _ Lo)), (proj1 (W _ row c _ Lw)); reflexivity|].
      split.
      { intros r' c' NE. unfold blockAt. destruct (Nat.eq_dec r' r) as [-> | NR].
        - rewrite (proj1 (W _ ops r _ Lo)), Ho. rewrite (proj2 (W _ row c _ Lw)); [reflexivity|]. congruence.
        - rewrite (proj2 (W _ ops r _ Lo)); auto. }
      split; [apply W; assumption|]. split; [apply W; assumption|]. split; [apply W; assumption|]. split; [apply W; assumption|]. split; apply W; assumption.
  - intros NA. destruct (clash sr (b_ran b)) eqn:A1; [reflexivity|]. destruct (clash sd (b_dual b)) eqn:A2; [reflexivity|]. destruct (clash sc (b_dom b)) eqn:A3; [reflexivity|].
    exfalso. apply NA. rewrite <- !CL. auto.
Qed.

(** all blocks in a row have the recorded range space and dual space, all blocks in a column the recorded domain space *)
Definition agreeing K (n : bnode K) : Prop :=
  match n with
  | MBlk ops ran dual dom => forall r c b, blockAt ops r c = Some b ->
      nth_error ran r = Some (Some (b_ran b)) /\ nth_error dual r = Some (Some (b_dual b)) /\ nth_error dom c = Some (Some (b_dom b))
  | _ => True
  end.
Theorem C96_block_spaces K (mass : space -> space -> mat K) cs i n : nth_error (nodes (brun mass cs)) i = Some n -> agreeing n.
Proof.
  revert i n. induction cs as [|x cs IH] using rev_ind; intros i n N; [destruct i; discriminate|].
  unfold brun in N. rewrite fold_left_app in N. cbn [fold_left] in N. fold (brun mass cs) in N.
  pose proof (brun_older mass cs) as O.
  assert (NEW : forall n0, (forall ops r d c, n0 = MBlk ops r d c -> forall p q, blockAt ops p q = None) -> nth_error (nodes (brun mass cs) ++ [n0]) i = Some n -> agreeing n).
  { intros n0 H Q. destruct (Nat.lt_ge_cases i (length (nodes (brun mass cs)))) as [L|L].
    - rewrite nth_error_app1 in Q by auto. eapply IH; eauto.
    - rewrite nth_error_app2 in Q by auto. destruct (i - _) as [|z]; [|destruct z; discriminate]. cbn in Q. injection Q as <-.
      destruct n0; cbn; auto. intros r c b E. rewrite (H _ _ _ _ eq_refl) in E. discriminate. }
  destruct x as [m k|a b|a y|a b|j r c b|rc a|rc a].
  - cbn [bstep] in N. rewrite nodes_app in N. cbn [bo_node] in N. eapply NEW; [|exact N]. intros ops r d c [= <- _ _ _] p q. unfold blockAt.
    destruct (nth_error (repeat _ m) p) as [row|] eqn:E; [|reflexivity]. apply nth_error_In, repeat_spec in E. subst row.
    destruct (nth_error (repeat _ k) q) as [u|] eqn:E; [|reflexivity]. apply nth_error_In, repeat_spec in E. assumption.
  - cbn [bstep] in N. destruct (spacesAt _ _ a) as [((?, ?), ?)|]; [|eapply IH; eauto]. destruct (spacesAt _ _ b) as [((?, ?), ?)|]; [|eapply IH; eauto].
    destruct (_ && _); [|eapply IH; eauto]. rewrite nodes_app in N. eapply NEW; [|exact N]. discriminate.
  - cbn [bstep] in N. destruct (spacesAt _ _ a) as [((?, ?), ?)|]; [|eapply IH; eauto]. rewrite nodes_app in N. eapply NEW; [|exact N]. discriminate.
  - cbn [bstep] in N. destruct (spacesAt _ _ a) as [((?, ?), ?)|]; [|eapply IH; eauto]. destruct (spacesAt _ _ b) as [((?, ?), ?)|]; [|eapply IH; eauto].
    destruct (sameSpaces _ _); [|eapply IH; eauto]. rewrite nodes_app in N. eapply NEW; [|exact N]. discriminate.
  - destruct (nth_error (nodes (brun mass cs)) j) as [[ops ran dual dom|u v|u v|u v]|] eqn:E.
    2-5: cbn [bstep] in N; rewrite nth_nodes in E; destruct (nth_error (brun mass cs) j) as [o|]; cbn in E;
      try discriminate; try (eapply IH; exact N); injection E as E; rewrite E in N; cbn in N; eapply IH; exact N.
    destruct (nth_error ran r) as [sr|] eqn:Hr; [destruct (nth_error dual r) as [sd|] eqn:Hd; [destruct (nth_error dom c) as [sc|] eqn:Hc|]|].
    2-4: cbn [bstep] in N; rewrite nth_nodes in E; destruct (nth_error (brun mass cs) j) as [o|]; [|discriminate]; cbn in E; injection E as E; rewrite E in N; cbn [setItem] in N;
      rewrite Hr, ?Hd, ?Hc in N; destruct (nth_error ops r); eapply IH; exact N.
    destruct (@C96_assignment K mass cs j r c b _ _ _ _ _ _ _ E Hr Hd Hc) as [YES NO]. cbv zeta in YES, NO. unfold brun in YES, NO. rewrite fold_left_app in YES, NO. cbn [fold_left] in YES, NO. fold (brun mass cs) in YES, NO.
    assert (forall s t, {agrees s t} + {~ agrees s t}) as DEC.
    { intros [s|] t; cbn; auto. destruct (speq t s) eqn:Q; [left; apply speq_eq; assumption|right; intros ->]. unfold speq in Q. rewrite !Nat.eqb_refl in Q. discriminate. }
    destruct (DEC sr (b_ran b)) as [A1|A1]; [destruct (DEC sd (b_dual b)) as [A2|A2]; [destruct (DEC sc (b_dom b)) as [A3|A3]|]|].
    2-4: rewrite NO in N by tauto; eapply IH; exact N.
    destruct YES as (OTH & ops' & ran' & dual' & dom' & Ei & B1 & B2 & R1 & R2 & D1 & D2 & C1 & C2); auto.
    destruct (Nat.eq_dec i j) as [-> | NE]; [|rewrite OTH in N by auto; eapply IH; exact N].
    rewrite N in Ei. injection Ei as ->. pose proof (IH _ _ E) as AG. cbn in AG |- *. intros p q b' Q.
    destruct (Nat.eq_dec p r) as [-> | NR].
    + destruct (Nat.eq_dec q c) as [-> | NC].
      * rewrite B1 in Q. injection Q as <-. auto.
      * rewrite B2 in Q by congruence. destruct (AG _ _ _ Q) as (Q1 & Q2 & Q3). rewrite Hr in Q1. rewrite Hd in Q2. injection Q1 as ->. injection Q2 as ->. cbn in A1, A2.
        rewrite R1, D1, C2 by auto. rewrite A1, A2. auto.
    + rewrite B2 in Q by congruence. destruct (AG _ _ _ Q) as (Q1 & Q2 & Q3). rewrite R2, D2 by auto. split; auto. split; auto.
      destruct (Nat.eq_dec q c) as [-> | NC]; [|rewrite C2; auto]. rewrite Hc in Q3. injection Q3 as ->. cbn in A3. rewrite C1, A3. reflexivity.
  - cbn [bstep] in N. unfold bweak_form in N. rewrite bweak_nodes in N. eapply IH; exact N.
  - cbn [bstep] in N. unfold bstrong_form in N. rewrite bstrong_nodes in N; [|intros; apply bweak_nodes]. eapply IH; exact N.
Qed.
(** an operator with 1 x 2 blocks: the second block fits, a third one in the wrong space is refused *)
Example C96_assignment_example :
  let b s := Blk s sp1 sp1 (EDense (scalarM 1)) in let cs := [BNew 1 2; BSet 0 0 0 (b sp1)] in
  (exists r d c, nth_error (nodes (brun massEx cs)) 0 = Some (MBlk r [Some sp1] d c) /\ agrees (nth 1 c None) spAll) /\
  nodes (brun massEx (cs ++ [BSet 0 0 0 (b spAll)])) = nodes (brun massEx cs).
Proof. split; [do 3 eexists; split; [vm_compute; reflexivity|exact I] | vm_compute; reflexivity]. Qed.

Print Assumptions C96_assignment.
Print Assumptions C96_block_spaces.
