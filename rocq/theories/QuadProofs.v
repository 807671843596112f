From Coq Require Import Reals ZArith List Lia Lra.
Import ListNotations.
From Verif Require Import Base ArrayModel QuadModel QuadSpec DuffyZones.
Set Implicit Arguments.

(** ---- fill ---- *)
Lemma fill_ok A pc (f : nat * (nat * nat) -> option A) ks a :
  (forall k, In k ks -> column pc k < length a /\ f k <> None) -> NoDup (map (column pc) ks) ->
  exists a', fill pc f ks a = Ok a' /\ length a' = length a /\
   (forall k, In k ks -> nth_error a' (column pc k) = Some (f k)) /\
   (forall c, ~ In c (map (column pc) ks) -> nth_error a' c = nth_error a c).
Proof.
  revert a. induction ks as [|k r IH]; intros a H N; cbn [fill].
  - exists a. split; [reflexivity|]. split; [reflexivity|]. split; [intros k []|reflexivity].
  - destruct (H k (or_introl eq_refl)) as [L F]. destruct (f k) as [v|] eqn:E; [|congruence].
    destruct (@upd_Some _ a _ (Some v) L) as [a1 U]. rewrite U.
    inversion N as [|? ? N1 N2]; subst.
    destruct (IH a1) as (a' & R & Ln & G & K); [|exact N2|].
    { intros k' I. rewrite (upd_length _ _ _ U). apply H. now right. }
    exists a'. split; [exact R|]. split; [rewrite Ln; eapply upd_length; eauto|]. split.
    + intros k' [<-|I]; [|now apply G]. rewrite (K _ N1), (upd_nth_error _ _ _ _ U), Nat.eqb_refl. now rewrite E.
    + intros c C. cbn in C. rewrite K by tauto. rewrite (upd_nth_error _ _ _ _ U).
      destruct (Nat.eqb_spec c (column pc k)); [subst; exfalso; apply C; now left|reflexivity].
Qed.
Lemma in_loop n pc r i j : In (r, (i, j)) (loopIndices n pc) <-> r < n /\ i < pc /\ j < pc.
Proof.
  unfold loopIndices. rewrite in_flat_map. split.
  - intros (r' & Hr & H). apply in_flat_map in H. destruct H as (i' & Hi & H). apply in_map_iff in H.
    destruct H as (j' & E & Hj). injection E as <- <- <-. rewrite in_seq in *. lia.
  - intros (A & B & C). exists r. split; [apply in_seq; lia|]. apply in_flat_map. exists i. split; [apply in_seq; lia|].
    apply in_map_iff. exists j. split; [reflexivity|apply in_seq; lia].
Qed.
Lemma column_inj pc r i j r' i' j' : i < pc -> j < pc -> i' < pc -> j' < pc ->
  column pc (r, (i, j)) = column pc (r', (i', j')) -> (r, (i, j)) = (r', (i', j')).
Proof.
  unfold column; cbn [fst snd]. intros A B C D E.
  assert (H : i = i' /\ j + r * pc = j' + r' * pc).
  { idtac.
    assert (E1 : (i + pc * (j + r * pc)) = (i' + pc * (j' + r' * pc))) by nia.
    assert (M : (i + pc * (j + r * pc)) mod pc = i) by (rewrite Nat.mul_comm, Nat.mod_add by lia; apply Nat.mod_small; lia).
    assert (M' : (i' + pc * (j' + r' * pc)) mod pc = i') by (rewrite Nat.mul_comm, Nat.mod_add by lia; apply Nat.mod_small; lia).
    assert (i = i') by congruence. subst. split; [reflexivity|nia]. }
  destruct H as [<- H].
  assert (M : (j + r * pc) mod pc = j) by (rewrite Nat.mod_add by lia; apply Nat.mod_small; lia).
  assert (M' : (j' + r' * pc) mod pc = j') by (rewrite Nat.mod_add by lia; apply Nat.mod_small; lia).
  assert (j = j') by congruence. subst. assert (r = r') by nia. congruence.
Qed.
Lemma column_lt n pc r i j : r < n -> i < pc -> j < pc -> column pc (r, (i, j)) < n * pc * pc.
Proof. unfold column; cbn [fst snd]. intros. assert (r * pc * pc + pc * pc <= n * pc * pc) by nia. nia. Qed.
Lemma column_surj n pc c : c < n * pc * pc -> exists r i j, r < n /\ i < pc /\ j < pc /\ column pc (r, (i, j)) = c.
Proof.
  intros H. assert (0 < pc) by nia. exists (c / (pc * pc)), (c mod pc), ((c / pc) mod pc).
  assert (c mod pc < pc) by (apply Nat.mod_upper_bound; lia).
  assert ((c / pc) mod pc < pc) by (apply Nat.mod_upper_bound; lia).
  split; [apply Nat.div_lt_upper_bound; nia|]. split; [assumption|]. split; [assumption|].
  unfold column; cbn [fst snd]. rewrite <- Nat.div_div by lia.
  pose proof (Nat.div_mod c pc ltac:(lia)). pose proof (Nat.div_mod (c / pc) pc ltac:(lia)). nia.
Qed.
Lemma nodup_columns n pc : NoDup (map (column pc) (loopIndices n pc)).
Proof.
  assert (N : NoDup (loopIndices n pc)).
  { unfold loopIndices. generalize 0 at 3 as b. induction n as [|n IH]; intros b; cbn [seq flat_map]; [constructor|].
    apply NoDup_app.
    - generalize 0 at 2 as c. generalize pc at 2 as m. induction m as [|m IHm]; intros c; cbn [seq flat_map]; [constructor|].
      apply NoDup_app; [|apply IHm|].
      + apply FinFun.Injective_map_NoDup; [intros x y; congruence|apply seq_NoDup].
      + intros [r' [i' j']] I1 I2. apply in_map_iff in I1. destruct I1 as (j & E & _). injection E as <- <- <-.
        apply in_flat_map in I2. destruct I2 as (i2 & Hi & I2). apply in_map_iff in I2. destruct I2 as (j2 & E & _). injection E as -> _. apply in_seq in Hi. lia.
    - apply IH.
    - intros [r' [i' j']] I1 I2. apply in_flat_map in I1. destruct I1 as (i & _ & I1). apply in_map_iff in I1. destruct I1 as (j & E & _). injection E as <- <- <-.
      apply in_flat_map in I2. destruct I2 as (r2 & Hr & I2). apply in_flat_map in I2. destruct I2 as (i2 & Hi & I2). apply in_map_iff in I2. destruct I2 as (j2 & E & _). injection E as -> _ _. apply in_seq in Hr. lia. }
  assert (I : forall k, In k (loopIndices n pc) -> fst (snd k) < pc /\ snd (snd k) < pc).
  { intros [r [i j]] H. apply in_loop in H. cbn. tauto. }
  revert N I. generalize (loopIndices n pc) as l. induction l as [|k l IH]; intros N I; cbn; [constructor|].
  inversion N; subst. constructor; [|apply IH; [assumption|intros; apply I; now right]].
  intros H. apply in_map_iff in H. destruct H as (k' & E & H).
  assert (k = k'); [|subst; contradiction].
  destruct k as [r [i j]], k' as [r' [i' j']]. pose proof (I _ (or_introl eq_refl)). pose proof (I _ (or_intror H)). cbn in *.
  symmetry. apply column_inj with (pc := pc); tauto.
Qed.
Lemma written_ok A (l : list (option A)) : (forall c, c < length l -> exists v, nth_error l c = Some (Some v)) ->
  exists r, written l = Ok r /\ length r = length l /\ forall c v, nth_error l c = Some (Some v) -> nth_error r c = Some v.
Proof.
  induction l as [|[a|] l IH]; intros H.
  - exists []. split; [reflexivity|]. split; [reflexivity|]. intros [|c]; discriminate.
  - destruct IH as (r & E & L & K). { intros c Hc. apply (H (S c)). cbn. lia. }
    exists (a :: r). cbn. rewrite E. cbn. split; [reflexivity|]. split; [now rewrite L|]. intros [|c] v; cbn; [congruence|apply K].
  - destruct (H 0) as [v E]; [cbn; lia|]. discriminate E.
Qed.
Lemma filled A n pc (f : nat * (nat * nat) -> option A) :
  (forall r i j, r < n -> i < pc -> j < pc -> exists v, f (r, (i, j)) = Some v) ->
  exists l, bind (fill pc f (loopIndices n pc) (repeat None (n * pc * pc))) (@written A) = Ok l /\ length l = n * pc * pc /\
    forall r i j v, r < n -> i < pc -> j < pc -> f (r, (i, j)) = Some v -> nth_error l (column pc (r, (i, j))) = Some v.
Proof.
  intros H. destruct (@fill_ok A pc f (loopIndices n pc) (repeat None (n * pc * pc))) as (a & E & L & G & _).
  - intros [r [i j]] I. apply in_loop in I. rewrite repeat_length. split; [apply column_lt; tauto|].
    destruct (H r i j) as [v Ev]; try tauto. congruence.
  - apply nodup_columns.
  - rewrite repeat_length in L. rewrite E. cbn [bind]. destruct (@written_ok A a) as (l & E1 & L1 & K1).
    { intros c Hc. rewrite L in Hc. destruct (column_surj n pc Hc) as (r & i & j & A1 & A2 & A3 & <-).
      destruct (H r i j A1 A2 A3) as [v Ev]. exists v. rewrite (G (r, (i, j))); [now rewrite Ev|]. now apply in_loop. }
    exists l. split; [exact E1|]. split; [congruence|]. intros r i j v A1 A2 A3 Ev. apply K1. rewrite (G (r, (i, j))); [now rewrite Ev|]. now apply in_loop.
Qed.
Lemma transform_length s g p : length (transform s g p) = numRegions s g.
Proof. destruct p; destruct s, g; reflexivity. Qed.
Lemma regionAt_some s g q r i j : r < numRegions s g -> i < length q -> j < length q -> 
  exists a b z, nth_error q i = Some a /\ nth_error q j = Some b /\ nth_error (transform s g (paramOf (fst a) (fst b))) r = Some z /\ regionAt s g q (r, (i, j)) = Some z.
Proof.
  intros Hr Hi Hj. destruct (nth_error q i) as [a|] eqn:Ei; [|apply nth_error_None in Ei; lia].
  destruct (nth_error q j) as [b|] eqn:Ej; [|apply nth_error_None in Ej; lia].
  destruct (nth_error (transform s g (paramOf (fst a) (fst b))) r) as [z|] eqn:Ez; [|apply nth_error_None in Ez; rewrite transform_length in Ez; lia].
  exists a, b, z. repeat split; auto. unfold regionAt. rewrite Ei, Ej. exact Ez.
Qed.

(** ---- remapping ---- *)
Lemma mapRes_ok A B (f : A -> res B) (h : A -> B) l : (forall a, f a = Ok (h a)) -> mapRes f l = Ok (map h l).
Proof. intros H. induction l as [|a l IH]; cbn; [reflexivity|]. rewrite H. cbn. rewrite IH. reflexivity. Qed.
Lemma three k : (0 <= k <= 2)%Z -> k = 0%Z \/ k = 1%Z \/ k = 2%Z. Proof. lia. Qed.
Definition swapV (v k : Z) : Z := if (k =? 0)%Z then v else if (k =? v)%Z then 0%Z else k.
Definition edgeV (v0 v1 k : Z) : Z := if (k =? 0)%Z then v0 else if (k =? 1)%Z then v1 else (3 - v0 - v1)%Z.
Lemma swapV_bij v : (0 <= v <= 2)%Z -> bijective3 (swapV v).
Proof. intros H. unfold bijective3, swapV. split; intros; repeat match goal with |- context [Z.eqb ?a ?b] => destruct (Z.eqb_spec a b) | H : context [Z.eqb ?a ?b] |- _ => destruct (Z.eqb_spec a b) end; lia. Qed.
Lemma edgeV_bij v w : (0 <= v <= 2)%Z -> (0 <= w <= 2)%Z -> v <> w -> bijective3 (edgeV v w).
Proof. intros H H' N. unfold bijective3, edgeV. split; intros; repeat match goal with |- context [Z.eqb ?a ?b] => destruct (Z.eqb_spec a b) | H : context [Z.eqb ?a ?b] |- _ => destruct (Z.eqb_spec a b) end; lia. Qed.
Lemma remapVertex_ok v pts : (0 <= v <= 2)%Z -> exists h, remapVertex Triangle v pts = Ok (map h pts) /\ forall q, permuted (swapV v) q (h q).
Proof.
  intros H. assert (E : exists h, (forall a, remapVertexPoint v a = Ok (h a)) /\ forall q, permuted (swapV v) q (h q)).
  { destruct (three H) as [->|[-> | ->]]; eexists; (split; [intros a; reflexivity|]);
    intros [x y] k Hk; destruct (three Hk) as [->|[-> | ->]]; cbn; ring. }
  destruct E as (h & E1 & E2). exists h. split; [|exact E2]. unfold remapVertex.
  replace ((v =? 0)%Z || (v =? 1)%Z || (v =? 2)%Z)%bool with true; [now apply mapRes_ok|].
  destruct (three H) as [->|[-> | ->]]; reflexivity.
Qed.
Lemma remapEdge_ok v w pts : (0 <= v <= 2)%Z -> (0 <= w <= 2)%Z -> v <> w ->
  exists h, remapEdge Triangle v w pts = Ok (map h pts) /\ forall q, permuted (edgeV v w) q (h q).
Proof.
  intros H H' N. assert (E : exists h, (forall a, remapEdgePoint v w a = Ok (h a)) /\ forall q, permuted (edgeV v w) q (h q)).
  { destruct (three H) as [->|[-> | ->]]; destruct (three H') as [->|[-> | ->]]; try (exfalso; lia); eexists; (split; [intros a; reflexivity|]);
    intros [x y] k Hk; destruct (three Hk) as [->|[-> | ->]]; cbn; ring. }
  destruct E as (h & E1 & E2). exists h. split; [|exact E2]. now apply mapRes_ok.
Qed.

(** ---- the assembled rule ---- *)
Lemma raw_rule s g q : exists a b w,
  let pc := length q in let n := (numRegions s g * pc * pc)%nat in
  bind (fill pc (fun k => option_map (fun z => toDune s (rx z)) (regionAt s g q k)) (loopIndices (numRegions s g) pc) (repeat None n)) (@written pt) = Ok a /\
  bind (fill pc (fun k => option_map (fun z => toDune s (ry z)) (regionAt s g q k)) (loopIndices (numRegions s g) pc) (repeat None n)) (@written pt) = Ok b /\
  bind (fill pc (weightAt s g q) (loopIndices (numRegions s g) pc) (repeat None n)) (@written R) = Ok w /\
  length a = n /\ length b = n /\ length w = n /\
  forall r i j, (r < numRegions s g)%nat -> (i < pc)%nat -> (j < pc)%nat -> exists z v, slot s g q r i j z v /\
    nth_error a (column pc (r, (i, j))) = Some (toDune s (rx z)) /\ nth_error b (column pc (r, (i, j))) = Some (toDune s (ry z)) /\
    nth_error w (column pc (r, (i, j))) = Some v.
Proof.
  destruct (@filled pt (numRegions s g) (length q) (fun k => option_map (fun z => toDune s (rx z)) (regionAt s g q k))) as (a & A1 & A2 & A3).
  { intros r i j Hr Hi Hj. destruct (regionAt_some s g q Hr Hi Hj) as (? & ? & z & _ & _ & _ & E). rewrite E. eexists; reflexivity. }
  destruct (@filled pt (numRegions s g) (length q) (fun k => option_map (fun z => toDune s (ry z)) (regionAt s g q k))) as (b & B1 & B2 & B3).
  { intros r i j Hr Hi Hj. destruct (regionAt_some s g q Hr Hi Hj) as (? & ? & z & _ & _ & _ & E). rewrite E. eexists; reflexivity. }
  destruct (@filled R (numRegions s g) (length q) (weightAt s g q)) as (w & W1 & W2 & W3).
  { intros r i j Hr Hi Hj. destruct (regionAt_some s g q Hr Hi Hj) as (? & ? & z & E1 & E2 & _ & E). unfold weightAt. rewrite E1, E2, E. eexists; reflexivity. }
  exists a, b, w. cbv zeta. repeat (split; [assumption|]). intros r i j Hr Hi Hj.
  destruct (regionAt_some s g q Hr Hi Hj) as (ea & eb & z & E1 & E2 & E3 & E). exists z, (rw z * snd ea * snd eb)%R.
  split; [exists ea, eb; now repeat split|]. split; [apply A3; auto; now rewrite E|]. split; [apply B3; auto; now rewrite E|].
  apply W3; auto. unfold weightAt. now rewrite E1, E2, E.
Qed.
