From Coq Require Import Sorted.
From Verif Require Import Base SegModel SegSpec SegProofs AsmModel AsmSpec SpaceModel SpaceSpec SpaceProofs SpaceP1Proofs.
Set Implicit Arguments.
Local Open Scope Z_scope.

(** selected corners of an element *)
Definition selB (s : segment) (strict : bool) (e : Z) (v : Z) : bool := if strict then inSeg s 0 e else inSeg s 2 v.
Fixpoint selected (s : segment) (strict : bool) (e : Z) (i : nat) (vs : list Z) : list ldof :=
  match vs with [] => [] | v :: r => (if selB s strict e v then [(e, i)] else []) ++ selected s strict e (S i) r end.
Fixpoint numberSel (s : segment) (strict : bool) (e : Z) (vs : list Z) (n : Z) : list Z :=
  match vs with
  | [] => []
  | v :: r => if selB s strict e v then n :: numberSel s strict e r (n + 1) else -1 :: numberSel s strict e r n
  end.
Lemma selB_eq s (strict : bool) e v : (if strict then contains s 0 e else contains s 2 v) = Some (selB s strict e v).
Proof.
  unfold selB. destruct strict.
  - apply (@inSeg_spec s 0 e). lia.
  - apply (@inSeg_spec s 2 v). lia.
Qed.
Definition sing (x : ldof) : list ldof := [x].
Lemma dp1Corners_eq s strict e : forall vs i g2l,
  dp1Corners s strict e i vs g2l =
  Some (numberSel s strict e vs (Z.of_nat (length g2l)), g2l ++ map sing (selected s strict e i vs)).
Proof.
  induction vs as [|v r IH]; intros i g2l; cbn [dp1Corners numberSel selected].
  - cbn. now rewrite app_nil_r.
  - rewrite selB_eq. cbn [obind]. destruct (selB s strict e v).
    + rewrite IH. cbn [obind fst snd]. rewrite app_length. cbn [length].
      rewrite Nat2Z.inj_add. cbn [app map]. now rewrite <- app_assoc.
    + rewrite IH. cbn [obind fst snd app]. reflexivity.
Qed.
Lemma numberSel_length s strict e : forall vs n, length (numberSel s strict e vs n) = length vs.
Proof. induction vs; intro n; cbn; [reflexivity|]. destruct (selB s strict e a); cbn; now rewrite IHvs. Qed.
Lemma numberSel_nth s strict e : forall vs n i0 i v, 0 <= n -> nth_error vs i = Some v ->
  exists d, nth_error (numberSel s strict e vs n) i = Some d /\
   ((d = -1 /\ selB s strict e v = false) \/
    (selB s strict e v = true /\ n <= d < n + Z.of_nat (length (selected s strict e i0 vs)) /\
     nth_error (selected s strict e i0 vs) (Z.to_nat (d - n)) = Some (e, (i0 + i)%nat))).
Proof.
  induction vs as [|w r IH]; intros n i0 i v Hn H; [destruct i; discriminate|].
  destruct i as [|i]; cbn in H.
  - injection H as ->. cbn. destruct (selB s strict e v) eqn:SB.
    + exists n. split; [reflexivity|]. right. split; [reflexivity|]. cbn. split; [lia|].
      rewrite Z.sub_diag. cbn. do 2 f_equal. lia.
    + exists (-1). split; [reflexivity|]. now left.
  - cbn. destruct (selB s strict e w) eqn:SB; cbn.
    + destruct (IH (n + 1) (S i0) i v) as (d & D & Q); [lia|exact H|]. exists d. split; [exact D|].
      destruct Q as [Q|(Q1 & Q2 & Q3)]; [now left|right]. split; [exact Q1|]. split; [lia|].
      replace (Z.to_nat (d - n)) with (Datatypes.S (Z.to_nat (d - (n + 1)))) by lia. cbn. rewrite Q3. do 2 f_equal. lia.
    + destruct (IH n (S i0) i v) as (d & D & Q); [lia|exact H|]. exists d. split; [exact D|].
      destruct Q as [Q|(Q1 & Q2 & Q3)]; [now left|right]. split; [exact Q1|]. split; [lia|]. rewrite Q3. do 2 f_equal. lia.
Qed.
(** conversely every selected corner has its number *)
Lemma selected_nth s strict e : forall vs n i0 k x, 0 <= n -> nth_error (selected s strict e i0 vs) k = Some x ->
  exists i, x = (e, (i0 + i)%nat) /\ nth_error (numberSel s strict e vs n) i = Some (n + Z.of_nat k).
Proof.
  induction vs as [|w r IH]; intros n i0 k x Hn H; [destruct k; discriminate|]. cbn in *.
  destruct (selB s strict e w) eqn:SB; cbn in H.
  - destruct k as [|k]; cbn in H.
    + injection H as <-. exists 0%nat. split; [f_equal; lia|]. cbn. f_equal. lia.
    + destruct (IH (n + 1) (Datatypes.S i0) k x) as (i & -> & E); [lia|exact H|]. exists (Datatypes.S i). split; [f_equal; lia|].
      cbn. rewrite E. f_equal. lia.
  - destruct (IH n (Datatypes.S i0) k x) as (i & -> & E); [lia|exact H|]. exists (Datatypes.S i). split; [f_equal; lia|exact E].
Qed.

Section DP1.
Context {K : star_ring}.
Variables (s : segment) (strict : bool).
Lemma dp1Loop_spec : forall es (l2g : list (list Z)) (w : list (list K)) g2l,
  NoDup (map s_index es) ->
  (forall e, In e es -> 0 <= s_index e < Z.of_nat (length l2g)) -> length w = length l2g ->
  let sel := flat_map (fun e => selected s strict (s_index e) 0 (s_verts e)) es in
  exists l2g' w', dp1Loop s strict es l2g w g2l = Some (l2g', w', g2l ++ map sing sel) /\
    length l2g' = length l2g /\ length w' = length w /\
    (forall k, ~ In k (map s_index es) -> zget l2g' k = zget l2g k /\ zget w' k = zget w k) /\
    (forall e, In e es -> zget w' (s_index e) = Some (repeat one (length (s_verts e))) /\
       exists ds, zget l2g' (s_index e) = Some ds /\ length ds = length (s_verts e) /\
       forall i v, nth_error (s_verts e) i = Some v -> exists d, nth_error ds i = Some d /\
        ((d = -1 /\ selB s strict (s_index e) v = false) \/
         (selB s strict (s_index e) v = true /\ Z.of_nat (length g2l) <= d < Z.of_nat (length g2l + length sel) /\
          nth_error sel (Z.to_nat (d - Z.of_nat (length g2l))) = Some (s_index e, i)))) /\
    (forall k x, nth_error sel k = Some x -> exists ds, In (fst x) (map s_index es) /\ zget l2g' (fst x) = Some ds /\
       nth_error ds (snd x) = Some (Z.of_nat (length g2l + k))).
Proof.
  induction es as [|e es IH]; intros l2g w g2l ND RI LW; cbn [dp1Loop flat_map map app]; cbv zeta.
  - rewrite app_nil_r. exists l2g, w. split; [reflexivity|]. split; [reflexivity|]. split; [reflexivity|].
    split; [auto|]. split; [intros e []|]. intros [|k] x H; discriminate.
  - cbn [map] in ND. apply NoDup_cons_iff in ND as (NI & ND). rewrite dp1Corners_eq. cbn [obind fst snd].
    set (sel0 := selected s strict (s_index e) 0 (s_verts e)).
    set (ds0 := numberSel s strict (s_index e) (s_verts e) (Z.of_nat (length g2l))).
    destruct (zset_Some l2g (s_index e) ds0) as (l1 & E1); [apply RI; now left|]. rewrite E1. cbn [obind].
    destruct (zset_Some w (s_index e) (repeat one (length (s_verts e)) : list K)) as (w1 & E2); [rewrite LW; apply RI; now left|].
    rewrite E2. cbn [obind].
    pose proof (zset_length _ _ _ E1) as L1. pose proof (zset_length _ _ _ E2) as L2.
    destruct (IH l1 w1 (g2l ++ map sing sel0) ND) as (l' & w' & E & A1 & A2 & A3 & A4 & A5).
    { intros; rewrite L1; apply RI; now right. } { congruence. }
    set (sel := flat_map _ es) in *. rewrite app_length, map_length in A4, A5.
    exists l', w'. rewrite E. split; [now rewrite <- app_assoc, map_app|]. split; [congruence|]. split; [congruence|].
    rewrite app_length. split; [|split].
    + intros k N. destruct (A3 k) as (B1 & B2); [intro; apply N; cbn; auto|]. rewrite B1, B2.
      rewrite (zset_get _ _ _ _ E1), (zset_get _ _ _ _ E2).
      destruct (Z.eqb_spec k (s_index e)); [|auto]. exfalso; apply N; cbn; auto.
    + intros e' [<-|I].
      * destruct (A3 _ NI) as (B1 & B2). rewrite B1, B2, (zset_get _ _ _ _ E1), (zset_get _ _ _ _ E2), Z.eqb_refl.
        split; [reflexivity|]. exists ds0. split; [reflexivity|]. split; [apply numberSel_length|].
        intros i v N. destruct (numberSel_nth s strict (s_index e) (s_verts e) (n := Z.of_nat (length g2l)) 0 i) with (v := v) as (d & D & Q); [lia|exact N|].
        exists d. split; [exact D|]. destruct Q as [Q|(Q1 & Q2 & Q3)]; [now left|right]. fold sel0 in Q2, Q3. split; [exact Q1|].
        split; [lia|]. rewrite nth_error_app1 by lia. exact Q3.
      * destruct (A4 e' I) as (B1 & ds & B2 & B3 & B4). split; [exact B1|]. exists ds. split; [exact B2|]. split; [exact B3|].
        intros i v N. destruct (B4 i v N) as (d & D & Q). exists d. split; [exact D|]. destruct Q as [Q|(Q1 & Q2 & Q3)]; [now left|right].
        split; [exact Q1|]. split; [lia|]. rewrite nth_error_app2 by lia. rewrite <- Q3. f_equal. lia.
    + intros k x H. destruct (Nat.lt_ge_cases k (length sel0)) as [L|L].
      * rewrite nth_error_app1 in H by exact L. unfold sel0 in H.
        destruct (selected_nth s strict (s_index e) (s_verts e) (n := Z.of_nat (length g2l)) 0 k) with (x := x) as (i & -> & N); [lia|exact H|].
        cbn [fst snd Nat.add]. destruct (A3 _ NI) as (B1 & _). exists ds0. split; [now left|].
        rewrite B1, (zset_get _ _ _ _ E1), Z.eqb_refl. split; [reflexivity|]. unfold ds0. rewrite N. f_equal. lia.
      * rewrite nth_error_app2 in H by exact L. destruct (A5 _ _ H) as (ds & B0 & B1 & B2). exists ds. split; [now right|]. split; [exact B1|].
        rewrite B2. f_equal. lia.
Qed.

(** everything about an appended numbering on a full set of elements *)
Lemma dp1_core es : indicesOk es ->
  exists l2g w sel, dp1Loop s strict es (repeat [] (length es)) (repeat [] (length es)) [] = Some (l2g, w : list (list K), map sing sel) /\
    length l2g = length es /\
    sel = flat_map (fun e => selected s strict (s_index e) 0 (s_verts e)) es /\
    (forall e, In e es -> exists ds, zget l2g (s_index e) = Some ds /\ length ds = length (s_verts e) /\
       zget w (s_index e) = Some (repeat one (length (s_verts e))) /\
       forall i v, nth_error (s_verts e) i = Some v -> exists d, nth_error ds i = Some d /\
        ((d = -1 /\ selB s strict (s_index e) v = false) \/
         (selB s strict (s_index e) v = true /\ 0 <= d /\ nth_error sel (Z.to_nat d) = Some (s_index e, i)))) /\
    forall flat, consistent (DofMap l2g w (map sing sel) flat).
Proof.
  intros IO. pose proof IO as (ND & RI).
  destruct (@dp1Loop_spec es (repeat [] (length es)) (repeat [] (length es)) [] ND) as (l2g & w & E & A1 & A2 & _ & A4 & A5).
  { intros e I. rewrite repeat_length. auto. } { now rewrite !repeat_length. }
  set (sel := flat_map _ es) in *. cbn [length Nat.add Z.of_nat app] in *. rewrite repeat_length in *.
  exists l2g, w, sel. split; [exact E|]. split; [exact A1|]. split; [reflexivity|]. split.
  { intros e I. destruct (A4 e I) as (B1 & ds & B2 & B3 & B4). exists ds. repeat split; auto.
    intros i v N. destruct (B4 i v N) as (d & D & Q). exists d. split; [exact D|]. destruct Q as [Q|(Q1 & Q2 & Q3)]; [now left|right].
    rewrite Z.sub_0_r in Q3. repeat split; auto. lia. }
  intro flat. set (m := DofMap l2g w (map sing sel) flat).
  assert (CV : forall e i d, globalDof m e i d -> exists x v, In x es /\ s_index x = e /\ nth_error (s_verts x) i = Some v).
  { intros e i d (ds & Z1 & Z2). unfold m in Z1; cbn in Z1. destruct (@indices_cover es e IO) as (x & I & <-); [rewrite <- A1; now apply zget_lt in Z1|].
    destruct (A4 x I) as (_ & ds' & B1 & B2 & B3). assert (ds' = ds) by congruence. subst ds'.
    assert (L : (i < length (s_verts x))%nat) by (rewrite <- B2; apply nth_error_Some; congruence).
    destruct (nth_error (s_verts x) i) as [v|] eqn:V; [|apply nth_error_None in V; lia]. eauto. }
  assert (GD : forall e i d, globalDof m e i d -> (d = -1 \/ (0 <= d < Z.of_nat (length sel) /\ nth_error sel (Z.to_nat d) = Some (e, i)))).
  { intros e i d H. destruct (CV _ _ _ H) as (x & v & I & <- & V). destruct H as (ds & Z1 & Z2). unfold m in Z1; cbn in Z1.
    destruct (A4 x I) as (_ & ds' & B1 & B2 & B3). assert (ds' = ds) by congruence. subst ds'.
    destruct (B3 i v V) as (d' & D & Q). assert (d' = d) by congruence. subst d'.
    destruct Q as [(-> & _)|(_ & Q2 & Q3)]; [now left|right]. rewrite Z.sub_0_r in Q3. auto. }
  split; [|split].
  - intros e i d H. unfold globalDofCount, m. cbn. rewrite map_length. destruct (GD _ _ _ H) as [?|(? & _)]; auto.
  - intros e i. split.
    + intros (d & H). destruct (CV _ _ _ H) as (x & v & I & <- & V). destruct (A4 x I) as (B & _).
      exists one. eexists. unfold m; cbn. split; [exact B|]. apply nth_error_repeat_. apply nth_error_Some. congruence.
    + intros (q & ws & Z1 & Z2). unfold m in Z1; cbn in Z1. destruct (@indices_cover es e IO) as (x & I & <-); [rewrite <- A2; now apply zget_lt in Z1|].
      destruct (A4 x I) as (B & ds & B1 & B2 & B3). assert (ws = repeat one (length (s_verts x))) by congruence. subst ws.
      assert (L : (i < length ds)%nat). { rewrite B2, <- (repeat_length (one : K) (length (s_verts x))). apply nth_error_Some. congruence. }
      destruct (nth_error ds i) as [d|] eqn:Q; [|apply nth_error_None in Q; lia]. exists d, ds. auto.
  - unfold globalDofCount, m. cbn. rewrite map_length. intros d L.
    destruct (nth_error sel d) as [x|] eqn:Ex; [|apply nth_error_None in Ex; lia].
    exists [x]. rewrite nth_error_map, Ex. split; [reflexivity|]. split; [repeat constructor; cbn; tauto|].
    intros e i. split.
    + intros [->|[]]. destruct (A5 _ _ Ex) as (ds & _ & B1 & B2). exists ds. auto.
    + intro H. destruct (GD _ _ _ H) as [?|(_ & Q)]; [lia|]. rewrite Nat2Z.id in Q. left. congruence.
Qed.

(** the numbering is the flat numbering if elements are visited in index order *)
Lemma flatOfElement_selected e : forall vs ds i0, length ds = length vs ->
  (forall i v, nth_error vs i = Some v -> exists d, nth_error ds i = Some d /\ (0 <=? d) = selB s strict (Z.of_nat e) v) ->
  flat_map (fun k => match nth_error ds k with Some g => if 0 <=? g then [(Z.of_nat e, (i0 + k)%nat)] else [] | None => [] end) (seq 0 (length ds))
  = selected s strict (Z.of_nat e) i0 vs.
Proof.
  induction vs as [|v r IH]; intros [|d ds] i0 L H; try discriminate; cbn [selected]; [reflexivity|].
  cbn [length seq flat_map nth_error]. destruct (H 0%nat v eq_refl) as (d' & D & Q). cbn in D. injection D as <-.
  rewrite Q, Nat.add_0_r. f_equal.
  rewrite <- seq_shift, flat_map_concat_map, map_map, <- flat_map_concat_map.
  rewrite <- (IH ds (S i0)).
  - apply flat_map_ext. intro k. cbn. replace (i0 + S k)%nat with (S (i0 + k)) by lia. reflexivity.
  - now injection L.
  - intros i w N. exact (H (S i) w N).
Qed.
Lemma flat_in_order es (l2g : list (list Z)) : map s_index es = zrange (Z.of_nat (length es)) -> length l2g = length es ->
  (forall e, In e es -> exists ds, zget l2g (s_index e) = Some ds /\ length ds = length (s_verts e) /\
     forall i v, nth_error (s_verts e) i = Some v -> exists d, nth_error ds i = Some d /\ (0 <=? d) = selB s strict (s_index e) v) ->
  initializeLocal2FlatLocalDofMap l2g = flat_map (fun e => selected s strict (s_index e) 0 (s_verts e)) es.
Proof.
  intros O L H. unfold initializeLocal2FlatLocalDofMap. rewrite L.
  assert (R : forall e, In e es -> 0 <= s_index e).
  { intros e I. assert (J : In (s_index e) (zrange (Z.of_nat (length es)))) by (rewrite <- O; now apply in_map). apply in_zrange in J. lia. }
  assert (Q : seq 0 (length es) = map (fun e => Z.to_nat (s_index e)) es).
  { rewrite <- (map_map s_index Z.to_nat), O. unfold zrange. rewrite map_map, Nat2Z.id.
    rewrite (map_ext _ (fun x => x)) by (intro; apply Nat2Z.id). now rewrite map_id. }
  rewrite Q. rewrite flat_map_concat_map, map_map, <- flat_map_concat_map. clear Q L O.
  induction es as [|e es IH]; cbn [flat_map]; [reflexivity|]. rewrite IH by (intros; (apply H || apply R); now right). f_equal.
  destruct (H e) as (ds & E & L & P); [now left|]. pose proof (R e (or_introl eq_refl)) as P0.
  assert (N : nth (Z.to_nat (s_index e)) l2g [] = ds).
  { apply nth_error_nth. unfold zget in E. destruct (s_index e <? 0); [discriminate|exact E]. }
  rewrite N. unfold flatOfElement.
  replace (s_index e) with (Z.of_nat (Z.to_nat (s_index e))) by (apply Z2Nat.id; exact P0). rewrite Nat2Z.id. apply (@flatOfElement_selected (Z.to_nat (s_index e)) (s_verts e) ds 0%nat L).
  intros i v V. rewrite Z2Nat.id by exact P0. now apply P.
Qed.
End DP1.

Section Final.
Context {K : star_ring}.
Lemma concat_sing (l : list ldof) : concat (map sing l) = l.
Proof. induction l; cbn; [reflexivity|]. now rewrite IHl. Qed.

Lemma dp1_final g s strict : gridOk g ->
  exists m : dofmap K, dp1Assign g s strict = Some m /\ consistent m /\ flatEnumerates m /\
    (forall d l, nth_error (dm_g2l m) d = Some l -> length l = 1%nat) /\
    (inIndexOrder g -> dm_flat m = concat (dm_g2l m)) /\
    flatLocalDofCount m = globalDofCount m /\
    forall e, In e (g_elts g) -> exists ds, zget (dm_l2g m) (s_index e) = Some ds /\ length ds = length (s_verts e) /\
       zget (dm_w m) (s_index e) = Some (repeat one (length (s_verts e))) /\
       forall i v, nth_error (s_verts e) i = Some v -> exists d, nth_error ds i = Some d /\
        (0 <= d <-> (if strict then holds s 0 (s_index e) else holds s 2 v)).
Proof.
  intros G. pose proof (gridOk_indices G) as IO.
  destruct (@dp1_core K s strict (g_elts g) IO) as (l2g & w & sel & E & L & Es & P & C).
  unfold dp1Assign. rewrite E. cbn [obind]. eexists. split; [reflexivity|]. split; [apply C|]. split; [now apply flatEnumerates_init|].
  cbn [dm_g2l dm_flat dm_l2g dm_w].
  assert (SB : forall e v, selB s strict e v = true <-> (if strict then holds s 0 e else holds s 2 v)).
  { intros e v. unfold selB. destruct strict; [apply (@inSeg_spec s 0 e); lia|apply (@inSeg_spec s 2 v); lia]. }
  split; [|split; [|split]].
  - intros d l H. rewrite nth_error_map in H. destruct (nth_error sel d); [|discriminate]. injection H as <-. reflexivity.
  - intro O. rewrite concat_sing, Es. apply flat_in_order; [exact O|exact L|].
    intros e I. destruct (P e I) as (ds & A1 & A2 & _ & A3). exists ds. split; [exact A1|]. split; [exact A2|].
    intros i v V. destruct (A3 i v V) as (d & D & Q). exists d. split; [exact D|].
    destruct Q as [(-> & Q)|(Q & Q1 & _)]; rewrite Q; [reflexivity|]. now apply Z.leb_le.
  - (* counts: both lists enumerate the active local dofs *)
    unfold flatLocalDofCount, globalDofCount. cbn [dm_flat dm_g2l]. rewrite map_length.
    set (m := DofMap l2g w (map sing sel) (initializeLocal2FlatLocalDofMap l2g)).
    assert (FE : flatEnumerates m) by now apply flatEnumerates_init. destruct FE as (FS & FI).
    pose proof (C (initializeLocal2FlatLocalDofMap l2g)) as (C1 & _ & C3). fold m in C1, C3.
    assert (ND1 : NoDup (initializeLocal2FlatLocalDofMap l2g)).
    { change (NoDup (dm_flat m)). clear -FS. induction FS as [|a l S IH F]; constructor; [|exact IH].
      intro I. rewrite Forall_forall in F. specialize (F _ I). destruct F as [F|(_ & F)]; lia. }
    assert (IS : forall e i d, nth_error sel d = Some (e, i) -> globalDof m e i (Z.of_nat d)).
    { intros e i d H. destruct (C3 d) as (l & A & _ & B). { unfold m, globalDofCount; cbn. rewrite map_length. apply nth_error_Some. congruence. }
      unfold m in A; cbn in A. rewrite nth_error_map, H in A. injection A as <-. apply B. now left. }
    assert (ND2 : NoDup sel).
    { apply NoDup_nth_error. intros a b La Eab. destruct (nth_error sel a) as [[e i]|] eqn:Ea; [|apply nth_error_None in Ea; lia].
      pose proof (IS _ _ _ Ea) as Ga. symmetry in Eab. pose proof (IS _ _ _ Eab) as Gb.
      destruct Ga as (ds & A & B), Gb as (ds' & A' & B'). rewrite A in A'. injection A' as <-. rewrite B in B'. injection B' as H. lia. }
    apply Nat.le_antisymm; apply NoDup_incl_length; auto.
    + intros [e i] I. change (In (e, i) (dm_flat m)) in I. apply FI in I as (d & H & Hd).
      destruct (C1 _ _ _ H) as [?|R]; [lia|]. destruct (C3 (Z.to_nat d)) as (l & A & _ & B); [lia|].
      rewrite Z2Nat.id in B by lia. apply B in H. unfold m in A; cbn in A. rewrite nth_error_map in A.
      destruct (nth_error sel (Z.to_nat d)) eqn:Q; [|discriminate]. injection A as <-. destruct H as [<-|[]]. eapply nth_error_In; eauto.
    + intros [e i] I. apply In_nth_error in I as (d & H). change (In (e, i) (dm_flat m)). apply FI. exists (Z.of_nat d). split; [now apply IS|lia].
  - intros e I. destruct (P e I) as (ds & A1 & A2 & A4 & A3). exists ds. split; [exact A1|]. split; [exact A2|]. split; [exact A4|].
    intros i v V. destruct (A3 i v V) as (d & D & Q). exists d. split; [exact D|]. rewrite <- SB.
    destruct Q as [(-> & Q)|(Q & Q1 & _)]; rewrite Q; [|tauto]. split; [lia|discriminate].
Qed.

(** P0 is the same loop with one "corner" per element *)
Definition asP0 (e : selt) : selt := SElt (s_index e) (s_dom e) (s_facets e) [0].
Lemma p0Loop_dp1 s : forall es (l2g : list (list Z)) (w : list (list K)) g2l,
  p0Loop s es l2g w g2l = dp1Loop s true (map asP0 es) l2g w g2l.
Proof.
  induction es as [|e es IH]; intros l2g w g2l; cbn [p0Loop dp1Loop map]; [reflexivity|].
  cbn [asP0 s_index s_verts dp1Corners length repeat]. destruct (contains s 0 (s_index e)) as [c|]; cbn [obind]; [|reflexivity].
  destruct c; cbn [obind fst snd]; (destruct (zset l2g (s_index e) _); cbn [obind]; [|reflexivity]);
    (destruct (zset w (s_index e) _); cbn [obind]; [|reflexivity]); apply IH.
Qed.
Lemma p0_core g s : gridOk g ->
  exists m : dofmap K, p0Assign g s = Some m /\ consistent m /\
    (forall d l, nth_error (dm_g2l m) d = Some l -> length l = 1%nat) /\
    (forall e, In e (g_elts g) -> exists d, zget (dm_l2g m) (s_index e) = Some [d] /\
       zget (dm_w m) (s_index e) = Some [one] /\ (0 <= d <-> holds s 0 (s_index e))) /\
    dm_flat m = map (fun i => (Z.of_nat i, 0%nat)) (seq 0 (length (g_elts g))) /\
    (inIndexOrder g -> (forall e, In e (g_elts g) -> holds s 0 (s_index e)) -> dm_flat m = concat (dm_g2l m)).
Proof.
  intros G. pose proof (gridOk_indices G) as (ND & RI).
  assert (IO : indicesOk (map asP0 (g_elts g))).
  { split; [rewrite map_map; exact ND|]. intros e I. apply in_map_iff in I as (x & <- & I). rewrite map_length. exact (RI x I). }
  destruct (@dp1_core K s true _ IO) as (l2g & w & sel & E & L & Es & P & C).
  rewrite map_length in E, L. unfold p0Assign. rewrite p0Loop_dp1, E. cbn [obind]. eexists. split; [reflexivity|].
  split; [apply C|]. cbn [dm_g2l dm_flat dm_l2g dm_w]. split; [|split; [|split; [reflexivity|]]].
  - intros d l H. rewrite nth_error_map in H. destruct (nth_error sel d); [|discriminate]. injection H as <-. reflexivity.
  - intros e I. destruct (P (asP0 e)) as (ds & A1 & A2 & A4 & A3); [now apply in_map|]. cbn in A1, A2, A4.
    destruct (A3 0%nat 0 eq_refl) as (d & D & Q). destruct ds as [|d0 [|? ?]]; try discriminate. cbn in D. injection D as ->.
    exists d. split; [exact A1|]. split; [exact A4|]. destruct (@inSeg_spec s 0 (s_index e)) as (_ & SB); [lia|].
    cbn [asP0 s_index] in Q. unfold selB in Q. destruct Q as [(-> & Q)|(Q & Q1 & _)]; rewrite <- SB, Q; [|tauto]. split; [lia|discriminate].
  - intros O H. rewrite concat_sing, Es. unfold inIndexOrder, g_n0 in O.
    assert (Q : map Z.of_nat (seq 0 (length (g_elts g))) = map s_index (g_elts g)).
    { rewrite O. unfold zrange. now rewrite Nat2Z.id. }
    rewrite <- (map_map Z.of_nat (fun z => (z, 0%nat))), Q. clear -H.
    revert H. induction (g_elts g) as [|e es IH]; intro H; cbn; [reflexivity|]. rewrite IH by (intros; apply H; now right).
    unfold selB. destruct (@inSeg_spec s 0 (s_index e)) as (_ & SB); [lia|]. rewrite (proj2 SB); [reflexivity|]. apply H. left. reflexivity.
Qed.
End Final.
