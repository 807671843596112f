From Coq Require Import Sorted.
From Verif Require Import Base SegModel SegSpec SegProofs AsmModel AsmSpec SpaceModel SpaceSpec SpaceProofs.
Set Implicit Arguments.
Local Open Scope Z_scope.

Lemma contains_bool s c i : (c < 4)%nat -> exists b : bool, contains s (Z.of_nat c) i = Some b /\ (b = true <-> holds s c i).
Proof.
  intro H. destruct (holds_decided s c i H) as [A|A].
  - exists true. split; [exact A|]. tauto.
  - exists false. split; [exact A|]. unfold holds. rewrite A. split; discriminate.
Qed.
(** the Boolean value of contains() for the codimensions that occur *)
Definition inSeg (s : segment) (c : nat) (i : Z) : bool :=
  match contains s (Z.of_nat c) i with Some b => b | None => false end.
Lemma inSeg_spec s c i : (c < 4)%nat -> contains s (Z.of_nat c) i = Some (inSeg s c i) /\ (inSeg s c i = true <-> holds s c i).
Proof. intro H. destruct (contains_bool s i H) as (b & E & P). unfold inSeg. rewrite E. auto. Qed.

Lemma clearAll_spec : forall vs l, (forall v, In v vs -> 0 <= v < Z.of_nat (length l)) ->
  exists l', clearAll l vs = Some l' /\ length l' = length l /\
  forall k, 0 <= k < Z.of_nat (length l) ->
    zget l' k = if smem k vs then Some false else zget l k.
Proof.
  induction vs as [|v vs IH]; intros l H; cbn [clearAll].
  - exists l. repeat split.
  - destruct (zset_Some l v false) as (l1 & E1); [apply H; now left|]. rewrite E1. cbn [obind].
    pose proof (zset_length _ _ _ E1) as L1. destruct (IH l1) as (l' & E & L & P).
    { intros x I. rewrite L1. apply H. now right. }
    exists l'. split; [exact E|]. split; [congruence|]. intros k R. rewrite P by now rewrite L1.
    cbn [smem existsb]. rewrite (zset_get _ _ _ k E1).
    change (existsb (Z.eqb k) vs) with (smem k vs). destruct (k =? v), (smem k vs); reflexivity.
Qed.
Lemma p1Scan_spec s : forall es noAdj cont,
  (forall e, In e es -> 0 <= s_index e < Z.of_nat (length cont)) ->
  (forall e v, In e es -> In v (s_verts e) -> 0 <= v < Z.of_nat (length noAdj)) -> NoDup (map s_index es) ->
  exists noAdj' cont', p1Scan s es noAdj cont = Some (noAdj', cont') /\ length noAdj' = length noAdj /\
   (forall e, In e es -> zget cont' (s_index e) = Some (inSeg s 0 (s_index e))) /\
   (forall k, ~ In k (map s_index es) -> zget cont' k = zget cont k) /\
   (forall k, 0 <= k < Z.of_nat (length noAdj) ->
      zget noAdj' k = if existsb (fun e => inSeg s 0 (s_index e) && smem k (s_verts e)) es then Some false else zget noAdj k).
Proof.
  induction es as [|e es IH]; intros noAdj cont H1 H2 ND; cbn [p1Scan].
  - exists noAdj, cont. repeat split; easy.
  - cbn [map] in ND. apply NoDup_cons_iff in ND as (NI & ND).
    destruct (inSeg_spec s (s_index e) (c := 0)) as (C & _); [lia|]. cbn [Z.of_nat] in C. rewrite C. cbn [obind].
    destruct (zset_Some cont (s_index e) (inSeg s 0 (s_index e))) as (c1 & E1); [apply H1; now left|]. rewrite E1. cbn [obind].
    pose proof (zset_length _ _ _ E1) as L1.
    assert (X : exists n1, (if inSeg s 0 (s_index e) then clearAll noAdj (s_verts e) else Some noAdj) = Some n1 /\
       length n1 = length noAdj /\ forall k, 0 <= k < Z.of_nat (length noAdj) ->
         zget n1 k = if inSeg s 0 (s_index e) && smem k (s_verts e) then Some false else zget noAdj k).
    { destruct (inSeg s 0 (s_index e)); [|eexists; repeat split].
      destruct (clearAll_spec (s_verts e) noAdj) as (l' & A & B & P); [intros; apply (H2 e); [now left|easy]|].
      exists l'. auto. }
    destruct X as (n1 & X1 & X2 & X3). rewrite X1. cbn [obind].
    destruct (IH n1 c1) as (n' & c' & E & L & P1 & P2 & P3).
    + intros; rewrite L1; apply H1; now right.
    + intros e' v I J. rewrite X2. apply (H2 e'); [now right|exact J].
    + exact ND.
    + exists n', c'. split; [exact E|]. split; [congruence|]. split; [|split].
      * intros e' [<-|I]; [|now apply P1]. rewrite P2 by exact NI. rewrite (zset_get _ _ _ _ E1), Z.eqb_refl. reflexivity.
      * intros k N. rewrite P2 by (intro; apply N; cbn; auto). rewrite (zset_get _ _ _ _ E1).
        destruct (Z.eqb_spec k (s_index e)); [|reflexivity]. exfalso; apply N; cbn; auto.
      * intros k R. rewrite P3 by now rewrite X2. rewrite X3 by exact R. cbn [existsb].
        destruct (inSeg s 0 (s_index e) && smem k (s_verts e)), (existsb _ es); reflexivity.
Qed.
Lemma zget_combine A B (l : list A) (m : list B) k : length l = length m ->
  zget (combine l m) k = match zget l k, zget m k with Some a, Some b => Some (a, b) | _, _ => None end.
Proof.
  unfold zget. destruct (k <? 0); [reflexivity|]. generalize (Z.to_nat k). revert m.
  induction l as [|a l IH]; intros [|b m] n L; try discriminate; destruct n; cbn; try reflexivity. apply IH. now injection L.
Qed.
Lemma zget_map A B (f : A -> B) l k : zget (map f l) k = match zget l k with Some a => Some (f a) | None => None end.
Proof. unfold zget. destruct (k <? 0); [reflexivity|]. rewrite nth_error_map. reflexivity. Qed.
Lemma zget_repeat A (a : A) n k : 0 <= k < Z.of_nat n -> zget (repeat a n) k = Some a.
Proof. intro H. unfold zget. destruct (Z.ltb_spec k 0); [lia|]. apply nth_error_repeat_. lia. Qed.


Lemma marks_spec g s : fits g s ->
  exists marks, markExcludedEntities s 2 (-1) = Some marks /\ length marks = Z.to_nat (g_n2 g) /\
  forall v, 0 <= v < g_n2 g -> zget marks v = Some (if inSeg s 2 v then 0 else -1).
Proof.
  intros F. destruct (F 2%nat) as (C & X); [lia|]. cbn [gridCounts] in *.
  unfold markExcludedEntities. change ((2 <? 0) || (3 <? 2)) with false. cbv iota. cbv zeta.
  change (Z.to_nat 2) with 2%nat. rewrite C.
  destruct (markLoop_ok (-1) (excluded s 2) (repeat 0 (Z.to_nat (g_n2 g)))) as (m & E & L & P).
  { intros x I. rewrite repeat_length. specialize (X x I). lia. }
  exists m. split; [exact E|]. rewrite repeat_length in *. split; [exact L|].
  intros v R. specialize (P v). rewrite nth_error_repeat_ in P by lia.
  destruct (inSeg_spec s v (c := 2)) as (_ & Q); [lia|].
  assert (HH : holds s 2 v <-> ~ In v (excluded s 2)) by (rewrite holds_iff by lia; rewrite C; tauto).
  unfold zget. destruct (Z.ltb_spec v 0); [lia|]. rewrite P by lia.
  destruct (smem v (excluded s 2)) eqn:M; destruct (inSeg s 2 v) eqn:B; try reflexivity.
  - exfalso. apply smem_In in M. tauto.
  - exfalso. apply smem_false in M. assert (false = true) by tauto. discriminate.
Qed.

(** which marks survive *)
Definition usedB (g : sgrid) (s : segment) (strict : bool) (v : Z) : bool :=
  inSeg s 2 v && (negb strict || existsb (fun e => inSeg s 0 (s_index e) && smem v (s_verts e)) (g_elts g)).
Lemma usedB_spec g s strict v : usedB g s strict v = true <-> usedVertex g s strict v.
Proof.
  unfold usedB, usedVertex. rewrite andb_true_iff, orb_true_iff, negb_true_iff.
  destruct (inSeg_spec s v (c := 2)) as (_ & Q); [lia|]. rewrite Q. apply and_iff_compat_l. rewrite existsb_exists. split.
  - intros [->|(e & I & H)] S; [discriminate|]. apply andb_true_iff in H as (A & B). exists e. split; [exact I|].
    apply smem_In in B. destruct (inSeg_spec s (s_index e) (c := 0)) as (_ & Q'); [lia|]. tauto.
  - intro H. destruct strict; [right|now left]. destruct (H eq_refl) as (e & I & A & B). exists e. split; [exact I|].
    apply andb_true_iff. destruct (inSeg_spec s (s_index e) (c := 0)) as (_ & Q'); [lia|]. split; [tauto|now apply smem_In].
Qed.

Section P1.
Context {K : star_ring}.
Lemma p1_core g s strict : gridOk g -> fits g s ->
  exists (m : dofmap K) vs, p1Assign g s strict = Some m /\ consistent m /\ flatEnumerates m /\
    StronglySorted Z.lt vs /\ length vs = globalDofCount m /\ (forall v, In v vs <-> usedVertex g s strict v) /\
    forall e, In e (g_elts g) -> exists ds, zget (dm_l2g m) (s_index e) = Some ds /\ length ds = length (s_verts e) /\
      zget (dm_w m) (s_index e) = Some (repeat one (length (s_verts e))) /\
      forall i v, nth_error (s_verts e) i = Some v -> exists d, nth_error ds i = Some d /\
        ((d = -1 /\ ~ (holds s 2 v /\ (strict = true -> holds s 0 (s_index e)))) \/
         (holds s 2 v /\ (strict = true -> holds s 0 (s_index e)) /\ 0 <= d /\ nth_error vs (Z.to_nat d) = Some v)).
Proof.
  intros G F. pose proof G as (ND & RI & _ & RV & _).
  destruct (marks_spec F) as (marks & EM & LM & PM).
  unfold p1Assign. rewrite EM. cbn [obind].
  (* the scan *)
  assert (SC : exists noAdj cont,
    (if strict then p1Scan s (g_elts g) (repeat true (Z.to_nat (g_n2 g))) (repeat false (length (g_elts g))) else Some ([], []))
      = Some (noAdj, cont) /\
    (strict = true -> (forall e, In e (g_elts g) -> zget cont (s_index e) = Some (inSeg s 0 (s_index e)))) /\
    let marks' := if strict then dropFlagged noAdj marks else marks in
    length marks' = Z.to_nat (g_n2 g) /\
    forall v, 0 <= v < g_n2 g -> zget marks' v = Some (if usedB g s strict v then 0 else -1)).
  { destruct strict.
    - destruct (p1Scan_spec s (g_elts g) (repeat true (Z.to_nat (g_n2 g))) (repeat false (length (g_elts g))))
        as (na & ct & E & L & P1 & _ & P3).
      + intros e I. rewrite repeat_length. apply RI. exact I.
      + intros e v I J. rewrite repeat_length. specialize (RV e v I J). lia.
      + exact ND.
      + exists na, ct. split; [exact E|]. split; [intros _; exact P1|]. rewrite repeat_length in *. cbv zeta iota.
        split.
        * unfold dropFlagged. rewrite map_length, combine_length. lia.
        * intros v R. unfold dropFlagged. rewrite zget_map, zget_combine by congruence.
          rewrite P3 by lia. rewrite PM by exact R. rewrite zget_repeat by lia.
          unfold usedB. cbn [negb orb]. destruct (existsb _ _); cbn; [now rewrite andb_true_r|].
          rewrite andb_false_r. reflexivity.
    - exists [], []. split; [reflexivity|]. split; [discriminate|]. cbv zeta iota. split; [exact LM|].
      intros v R. rewrite PM by exact R. unfold usedB. cbn [negb orb]. now rewrite andb_true_r. }
  destruct SC as (noAdj & cont & ES & PC & PMs). cbv zeta in PMs. rewrite ES. cbn [obind]. cbv zeta.
  match goal with |- context [numberZeros ?x 0] => set (marks' := x) in * end.
  destruct PMs as (LM' & PM').
  destruct (numberZeros marks' 0) as [dofV count] eqn:EN.
  destruct (@numberZeros_spec marks' 0 0 dofV count) as (L2 & C2 & P2); [lia|exact EN|].
  set (vs := zerosFrom 0 marks') in *.
  assert (INV : forall v, In v vs <-> usedVertex g s strict v).
  { intro v. unfold vs. rewrite in_zerosFrom, Z.sub_0_r, <- usedB_spec. split.
    - intros (P & E). pose proof (zget_lt _ _ E) as R. rewrite PM' in E by lia. destruct (usedB g s strict v); [reflexivity|discriminate].
    - intro U. assert (H2 : holds s 2 v) by (apply usedB_spec in U; apply U).
      apply holds_iff in H2; [|lia]. destruct (F 2%nat) as (C & _); [lia|]. rewrite C in H2. cbn [gridCounts] in H2.
      split; [lia|]. rewrite PM' by lia. now rewrite U. }
  (* dof of a vertex *)
  assert (DV : forall v, 0 <= v < g_n2 g -> exists d, zget dofV v = Some d /\
     ((d = -1 /\ usedB g s strict v = false) \/ (usedB g s strict v = true /\ 0 <= d < count /\ nth_error vs (Z.to_nat d) = Some v))).
  { intros v R. pose proof (PM' v R) as E. unfold zget in E. destruct (Z.ltb_spec v 0); [lia|].
    destruct (P2 _ _ E) as (A & B). unfold zget. destruct (Z.ltb_spec v 0); [lia|].
    destruct (usedB g s strict v).
    - destruct (B eq_refl) as (d & D1 & D2 & D3). exists d. split; [exact D1|]. right. split; [reflexivity|]. split; [lia|].
      rewrite Z.sub_0_r in D3. rewrite D3. f_equal. lia.
    - exists (-1). split; [apply A; lia|]. left. auto. }
  set (dv := fun v => match zget dofV v with Some d => d | None => -1 end).
  set (cB := fun e => if strict then inSeg s 0 (s_index e) else true).
  set (D := fun e => map (fun v => if cB e : bool then dv v else -1) (s_verts e)).
  set (W := fun e => repeat (one : K) (length (s_verts e))).
  edestruct (@assignByEntity_spec K) with (D := D) (W := W) (n := Z.to_nat count) (es := g_elts g)
    as (m & E & A1 & A2 & A3 & A4 & A5 & A6 & A7).
  - now apply gridOk_indices.
  - intros e I. split; [|reflexivity].
    instantiate (1 := fun e => c <- (if strict then zget cont (s_index e) else Some true) ;;
              oseq (map (fun v => if c : bool then zget dofV v else Some (-1)%Z) (s_verts e))). cbv beta.
    assert (X : (if strict then zget cont (s_index e) else Some true) = Some (cB e)).
    { unfold cB. destruct strict; [now apply PC|reflexivity]. }
    rewrite X. cbn [obind]. apply oseq_map. intros v J. destruct (cB e); [|reflexivity].
    unfold dv. destruct (DV v) as (d & Ed & _); [now apply (RV e)|]. now rewrite Ed.
  - intros e d I J. apply in_map_iff in J as (v & <- & J). destruct (cB e); [|now left].
    unfold dv. destruct (DV v) as (d & Ed & H); [now apply (RV e)|]. rewrite Ed. destruct H as [(-> & _)|(_ & H & _)]; [now left|right; lia].
  - intros e I. unfold W, D. now rewrite repeat_length, map_length.
  - exists m, vs. split; [exact E|]. split; [exact A6|]. split; [exact A7|]. split; [apply zerosFrom_sorted|].
    split; [rewrite A4; lia|]. split; [exact INV|].
    intros e I. destruct (A1 e I) as (B1 & B2). exists (D e). split; [exact B1|]. split; [apply map_length|]. split; [exact B2|].
    intros i v N. unfold D. rewrite nth_error_map, N. cbn [option_map]. eexists. split; [reflexivity|].
    assert (J : In v (s_verts e)) by (eapply nth_error_In; eauto).
    destruct (DV v) as (d & Ed & H); [now apply (RV e)|].
    destruct (inSeg_spec s (s_index e) (c := 0)) as (_ & Q0); [lia|].
    destruct (inSeg_spec s v (c := 2)) as (_ & Q2); [lia|].
    assert (CB : cB e = true <-> (strict = true -> holds s 0 (s_index e))).
    { unfold cB. destruct strict; [rewrite Q0; tauto|]. split; [discriminate|reflexivity]. }
    assert (UB : cB e = true -> (usedB g s strict v = true <-> holds s 2 v)).
    { intro CE. rewrite usedB_spec. unfold usedVertex. split; [tauto|]. intro H2. split; [exact H2|].
      intro S. exists e. split; [exact I|]. split; [tauto|exact J]. }
    destruct (cB e) eqn:CE.
    + specialize (UB eq_refl). unfold dv. rewrite Ed. destruct H as [(-> & U)|(U & R & H)].
      * left. split; [reflexivity|]. intros (H2 & _). apply UB in H2. congruence.
      * right. split; [tauto|]. split; [tauto|]. split; [lia|exact H].
    + left. split; [reflexivity|]. intros (_ & H2). apply CB in H2. discriminate.
Qed.
Lemma p1_shape g s strict (m : dofmap K) : p1Assign g s strict = Some m ->
  length (dm_l2g m) = length (g_elts g) /\ dm_flat m = initializeLocal2FlatLocalDofMap (dm_l2g m).
Proof.
  unfold p1Assign. destruct (markExcludedEntities s 2 (-1)); [|discriminate]. cbn [obind].
  match goal with |- (x <- ?sc ;; _) = _ -> _ => destruct sc as [[na ct]|]; [|discriminate] end. cbn [obind]. cbv zeta.
  destruct (numberZeros _ 0) as [dv n]. intro H. now apply assignByEntity_shape in H.
Qed.
End P1.
