From Coq Require Import Reals Lra.
From Verif Require Import Base ComplexR SegModel SegSpec SegProofs AsmModel AsmSpec SpaceModel SpaceSpec SpaceProofs SpaceP1Proofs
  SpaceRwgProofs RangeProofs VecModel VecSpec LagModel BaryModel BarySpec.
Set Implicit Arguments.
Unset Strict Implicit.
Local Open Scope Z_scope.

(** ---- the table of sons ---- *)
Definition pushed (r : row) (d : Z) : list ldof :=
  flat_map (fun l => match nth_error (r_dofs r) l with Some x => if x =? d then [(r_index r, l)] else [] | None => [] end) (r_push r).
Definition rowOk (count : nat) (r : row) : Prop :=
  (forall d, In d (r_dofs r) -> d = -1 \/ 0 <= d < Z.of_nat count) /\ length (r_w r) = length (r_dofs r) /\
  NoDup (r_push r) /\ (forall l, In l (r_push r) <-> (l < length (r_dofs r))%nat).
Lemma zpush_spec A (l : list (list A)) i (x : A) : 0 <= i < Z.of_nat (length l) ->
  exists l', zpush l i x = Some l' /\ length l' = length l /\
  forall k r, nth_error l k = Some r -> nth_error l' k = Some (if i =? Z.of_nat k then r ++ [x] else r).
Proof.
  intro H. unfold zpush. destruct (zget_Some l i H) as (r0 & E). rewrite E. cbn [obind].
  destruct (zset_Some l i (r0 ++ [x]) H) as (l' & E'). exists l'. split; [exact E'|]. split; [apply (zset_length _ _ _ E')|].
  intros k r Hk. pose proof (zset_get _ _ _ (Z.of_nat k) E') as G. rewrite zget_nat in G. rewrite G, zget_nat, Hk.
  rewrite Z.eqb_sym. destruct (Z.eqb_spec i (Z.of_nat k)) as [->|]; [|reflexivity]. rewrite zget_nat in E. congruence.
Qed.
Lemma pushRow_spec r : forall count g2l, rowOk count r -> length g2l = count ->
  exists g', pushRow r g2l = Some g' /\ length g' = count /\
  forall k l, nth_error g2l k = Some l -> nth_error g' k = Some (l ++ pushed r (Z.of_nat k)).
Proof.
  intros count g2l (A & _ & _ & B) L. unfold pushRow, pushed.
  assert (B' : forall l, In l (r_push r) -> (l < length (r_dofs r))%nat) by (intros; now apply B).
  clear B. revert g2l L. induction (r_push r) as [|l ls IH]; intros g2l L; cbn [ofold flat_map].
  - exists g2l. split; [reflexivity|]. split; [exact L|]. intros k l Hk. rewrite app_nil_r. exact Hk.
  - destruct (nth_error (r_dofs r) l) as [d|] eqn:Ed.
    2:{ apply nth_error_None in Ed. specialize (B' l (or_introl eq_refl)). lia. }
    cbn [obind]. assert (In d (r_dofs r)) as Id by (eapply nth_error_In; eauto).
    destruct (Z.leb_spec 0 d).
    + destruct (@zpush_spec ldof g2l d (r_index r, l)) as (g1 & E1 & L1 & P1). { destruct (A d Id); lia. }
      rewrite E1. cbn [obind]. destruct (IH (fun x Hx => B' x (or_intror Hx)) g1) as (g' & E' & L' & P'); [lia|].
      exists g'. split; [exact E'|]. split; [exact L'|]. intros k r0 Hk. rewrite (P' _ _ (P1 _ _ Hk)).
      destruct (d =? Z.of_nat k); cbn [app]; [now rewrite <- app_assoc|reflexivity].
    + cbn [obind]. destruct (IH (fun x Hx => B' x (or_intror Hx)) g2l L) as (g' & E' & L' & P').
      exists g'. split; [exact E'|]. split; [exact L'|]. intros k r0 Hk. rewrite (P' _ _ Hk).
      destruct (Z.eqb_spec d (Z.of_nat k)); [lia|reflexivity].
Qed.
Lemma rows_spec count : forall rows t,
  (forall r, In r rows -> rowOk count r) -> NoDup (map r_index rows) ->
  (forall r, In r rows -> 0 <= r_index r < Z.of_nat (length (t_l2g t))) ->
  length (t_w t) = length (t_l2g t) -> length (t_type t) = length (t_l2g t) -> length (t_g2l t) = count ->
  exists t', ofold (fun t r => r' <- r ;; writeRow t r') (map Some rows) t = Some t' /\
    length (t_l2g t') = length (t_l2g t) /\ length (t_w t') = length (t_l2g t) /\ length (t_type t') = length (t_l2g t) /\
    length (t_g2l t') = count /\
    (forall r, In r rows -> zget (t_l2g t') (r_index r) = Some (r_dofs r) /\ zget (t_w t') (r_index r) = Some (r_w r) /\
                            zget (t_type t') (r_index r) = Some (r_type r)) /\
    (forall k, ~ In k (map r_index rows) -> zget (t_l2g t') k = zget (t_l2g t) k /\ zget (t_w t') k = zget (t_w t) k /\
                            zget (t_type t') k = zget (t_type t) k) /\
    (forall k l, nth_error (t_g2l t) k = Some l -> nth_error (t_g2l t') k = Some (l ++ flat_map (fun r => pushed r (Z.of_nat k)) rows)).
Proof.
  induction rows as [|r rows IH]; intros t OK ND RI LW LT LG; cbn [map ofold].
  - exists t. repeat split; auto; try (destruct H). intros k l Hk. cbn. rewrite app_nil_r. exact Hk.
  - cbn [obind]. unfold writeRow at 1.
    assert (Rr : 0 <= r_index r < Z.of_nat (length (t_l2g t))) by (apply RI; now left).
    destruct (zset_Some (t_l2g t) (r_index r) (r_dofs r)) as (l2g & E1); [lia|]. rewrite E1. cbn [obind].
    destruct (zset_Some (t_w t) (r_index r) (r_w r)) as (w & E2); [lia|]. rewrite E2. cbn [obind].
    destruct (zset_Some (t_type t) (r_index r) (r_type r)) as (ty & E3); [lia|]. rewrite E3. cbn [obind].
    destruct (@pushRow_spec r count (t_g2l t) (OK r (or_introl eq_refl)) LG) as (g' & E4 & L4 & P4). rewrite E4. cbn [obind].
    inversion ND as [|? ? NI ND']; subst.
    pose proof (zset_length _ _ _ E1) as Z1. pose proof (zset_length _ _ _ E2) as Z2. pose proof (zset_length _ _ _ E3) as Z3.
    destruct (IH (Tables l2g w g' ty)) as (t' & E & A1 & A2 & A3 & A4 & A5 & A6 & A7); cbn [t_l2g t_w t_g2l t_type]; auto; try lia.
    { intros; apply OK; now right. } { intros; rewrite Z1; apply RI; now right. }
    cbn [t_l2g t_w t_g2l t_type] in *.
    exists t'. split; [exact E|]. rewrite A1, A2, A3. repeat split; auto; try lia.
    + destruct H as [<-|H]; [|now apply A5]. destruct (A6 (r_index r) NI) as (B & _). now rewrite B, (zset_get _ _ _ _ E1), Z.eqb_refl.
    + destruct H as [<-|H]; [|now apply A5]. destruct (A6 (r_index r) NI) as (_ & B & _). now rewrite B, (zset_get _ _ _ _ E2), Z.eqb_refl.
    + destruct H as [<-|H]; [|now apply A5]. destruct (A6 (r_index r) NI) as (_ & _ & B). now rewrite B, (zset_get _ _ _ _ E3), Z.eqb_refl.
    + cbn [In] in H. destruct (A6 k) as (B & _); [tauto|]. rewrite B, (zset_get _ _ _ _ E1). destruct (Z.eqb_spec k (r_index r)); [subst; tauto|reflexivity].
    + cbn [In] in H. destruct (A6 k) as (_ & B & _); [tauto|]. rewrite B, (zset_get _ _ _ _ E2). destruct (Z.eqb_spec k (r_index r)); [subst; tauto|reflexivity].
    + cbn [In] in H. destruct (A6 k) as (_ & _ & B); [tauto|]. rewrite B, (zset_get _ _ _ _ E3). destruct (Z.eqb_spec k (r_index r)); [subst; tauto|reflexivity].
    + intros k l Hk. rewrite (A7 _ _ (P4 _ _ Hk)). cbn [flat_map]. now rewrite <- app_assoc.
Qed.
Lemma in_pushed count r d e l : rowOk count r -> In (e, l) (pushed r d) <-> e = r_index r /\ nth_error (r_dofs r) l = Some d.
Proof.
  intros (_ & _ & _ & B). unfold pushed. rewrite in_flat_map. split.
  - intros (l' & I & J). destruct (nth_error (r_dofs r) l') as [x|] eqn:E; [|destruct J].
    destruct (Z.eqb_spec x d); [|destruct J]. destruct J as [J|[]]. injection J as -> ->. subst. auto.
  - intros (-> & E). exists l. split; [apply B; apply nth_error_Some; congruence|]. rewrite E, Z.eqb_refl. now left.
Qed.
Lemma NoDup_flat_map A B (f : A -> list B) l : NoDup l -> (forall a, In a l -> NoDup (f a)) ->
  (forall a b x, In a l -> In b l -> In x (f a) -> In x (f b) -> a = b) -> NoDup (flat_map f l).
Proof.
  induction 1 as [|a l NI ND IH]; cbn; intros F D; [constructor|]. apply NoDup_app2.
  - apply F; now left.
  - apply IH; [intros; apply F; now right|]. intros b c x Ib Ic; apply D; now right.
  - intros x I J. apply in_flat_map in J as (b & Ib & J). assert (a = b) by (apply (D a b x); [now left|now right|exact I|exact J]). now subst.
Qed.
Lemma pushed_NoDup r d : NoDup (r_push r) -> NoDup (pushed r d).
Proof.
  intro H. apply NoDup_flat_map; [exact H| |].
  - intros l _. destruct (nth_error (r_dofs r) l); [|constructor]. destruct (z =? d); repeat constructor. intros [].
  - intros l l' x _ _ I J. destruct (nth_error (r_dofs r) l); [|destruct I]. destruct (z =? d); [|destruct I]. destruct I as [<-|[]].
    destruct (nth_error (r_dofs r) l'); [|destruct J]. destruct (z0 =? d); [|destruct J]. destruct J as [J|[]]. now injection J.
Qed.
Lemma assignSons_spec n count rows :
  length rows = n -> (forall r, In r rows -> rowOk count r) -> NoDup (map r_index rows) ->
  (forall r, In r rows -> 0 <= r_index r < Z.of_nat n) ->
  exists b, assignSons n count (map Some rows) = Some b /\
    globalDofCount (b_map b) = count /\ consistent (b_map b) /\ flatEnumerates (b_map b) /\
    (forall r, In r rows -> zget (dm_l2g (b_map b)) (r_index r) = Some (r_dofs r) /\
                            zget (dm_w (b_map b)) (r_index r) = Some (r_w r : list Rsr) /\ zget (b_type b) (r_index r) = Some (r_type r)) /\
    length (dm_l2g (b_map b)) = n /\
    (forall k, (k < count)%nat -> nth_error (dm_g2l (b_map b)) k = Some (flat_map (fun r => pushed r (Z.of_nat k)) rows)).
Proof.
  intros LR OK ND RI. unfold assignSons.
  destruct (@rows_spec count rows (Tables (repeat [] n) (repeat [] n) (repeat [] count) (repeat false n)))
    as (t & E & A1 & A2 & A3 & A4 & A5 & _ & A7); cbn [t_l2g t_w t_g2l t_type] in *; rewrite ?repeat_length; auto.
  rewrite E. cbn [obind]. eexists. split; [reflexivity|]. cbn [b_map b_type dm_l2g dm_w dm_g2l].
  rewrite repeat_length in *.
  assert (G2L : forall k, (k < count)%nat -> nth_error (t_g2l t) k = Some (flat_map (fun r => pushed r (Z.of_nat k)) rows)).
  { intros k Hk. rewrite (A7 k []); [reflexivity|]. now apply nth_error_repeat_. }
  assert (COV : forall k, 0 <= k < Z.of_nat n -> exists r, In r rows /\ r_index r = k).
  { intros k Hk. assert (I : incl (zrange (Z.of_nat n)) (map r_index rows)).
    { apply NoDup_length_incl; [exact ND| |].
      - unfold zrange. rewrite map_length, map_length, seq_length. lia.
      - intros x Hx. apply in_map_iff in Hx as (r & <- & Hr). specialize (RI r Hr). unfold zrange. apply in_map_iff.
        exists (Z.to_nat (r_index r)). split; [lia|]. apply in_seq. lia. }
    assert (In k (zrange (Z.of_nat n))) as Ik. { unfold zrange. apply in_map_iff. exists (Z.to_nat k). split; [lia|]. apply in_seq. lia. }
    apply I in Ik. apply in_map_iff in Ik as (r & <- & Hr). eauto. }
  assert (GD : forall e i d, @globalDof Rsr (@DofMap Rsr (t_l2g t) (t_w t) (t_g2l t) (initializeLocal2FlatLocalDofMap (t_l2g t))) e i d <->
      exists r, In r rows /\ r_index r = e /\ nth_error (r_dofs r) i = Some d).
  { intros e i d. unfold globalDof. cbn [dm_l2g]. split.
    - intros (ds & E1 & E2). pose proof (zget_lt _ _ E1) as R. rewrite A1 in R. destruct (COV e R) as (r & Hr & <-).
      exists r. destruct (A5 r Hr) as (B & _). split; [exact Hr|]. split; [reflexivity|]. congruence.
    - intros (r & Hr & <- & H). destruct (A5 r Hr) as (B & _). eauto. }
  split; [exact A4|]. split; [|split; [apply flatEnumerates_init; reflexivity|split; [|split; [exact A1|exact G2L]]]].
  2:{ intros r Hr. destruct (A5 r Hr) as (B1 & B2 & B3). auto. }
  split; [|split].
  - intros e i d H. apply GD in H as (r & Hr & _ & H). unfold globalDofCount. cbn [dm_g2l]. rewrite A4.
    apply (OK r Hr). eapply nth_error_In; eauto.
  - intros e i. split.
    + intros (d & H). apply GD in H as (r & Hr & <- & H). destruct (A5 r Hr) as (_ & B & _).
      assert (i < length (r_w r))%nat as Hi. { destruct (OK r Hr) as (_ & Lw & _). rewrite Lw. apply nth_error_Some. congruence. }
      destruct (nth_error (r_w r) i) as [w|] eqn:Ew; [|apply nth_error_None in Ew; lia]. exists w, (r_w r). auto.
    + intros (w & ws & E1 & E2). cbn [dm_w] in E1. assert (R : 0 <= e < Z.of_nat n) by (rewrite <- A2; exact (zget_lt _ _ E1)). destruct (COV e R) as (r & Hr & <-).
      destruct (A5 r Hr) as (_ & B & _). assert (ws = r_w r) by (pose proof (eq_trans (eq_sym E1) B) as Q; now injection Q). subst.
      assert (i < length (r_dofs r))%nat as Hi. { destruct (OK r Hr) as (_ & Lw & _). rewrite <- Lw. apply nth_error_Some. intro Q. pose proof (eq_trans (eq_sym E2) Q) as Q'. discriminate Q'. }
      destruct (nth_error (r_dofs r) i) as [d|] eqn:Ed; [|apply nth_error_None in Ed; lia]. exists d. apply GD. eauto.
  - intros d Hd. unfold globalDofCount in Hd. cbn [dm_g2l] in *. rewrite A4 in Hd. eexists. split; [apply G2L; exact Hd|]. split.
    + apply NoDup_flat_map.
      * eapply NoDup_map_inv; eauto.
      * intros r Hr. apply pushed_NoDup. apply (OK r Hr).
      * intros r r' [e l] Hr Hr' I J. apply (in_pushed _ _ _ (OK r Hr)) in I as (-> & _). apply (in_pushed _ _ _ (OK r' Hr')) in J as (J & _).
        clear -ND Hr Hr' J. induction rows as [|a rows IH]; [destruct Hr|]. inversion ND; subst.
        destruct Hr as [<-|Hr], Hr' as [<-|Hr']; auto.
        -- exfalso. apply H1. rewrite J. now apply in_map.
        -- exfalso. apply H1. rewrite <- J. now apply in_map.
    + intros e i. rewrite in_flat_map. rewrite GD. split.
      * intros (r & Hr & H). apply (in_pushed _ _ _ (OK r Hr)) in H as (-> & H). eauto.
      * intros (r & Hr & <- & H). exists r. split; [exact Hr|]. apply (in_pushed _ _ _ (OK r Hr)). auto.
Qed.
