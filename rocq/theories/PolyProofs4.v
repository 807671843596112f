(** Continuous spaces: marks, dof table, and when two dofs coincide. *)
From Coq Require Import Permutation Sorted.
From Verif Require Import Base SegModel SegSpec SegProofs AsmModel AsmSpec SpaceModel SpaceSpec SpaceProofs SpaceP1Proofs RangeProofs PolyModel PolySpec PolyProofs1 PolyProofs2 PolyProofs3.
Set Implicit Arguments.
Local Open Scope Z_scope.

Lemma pscan_spec s strict B Q : forall es st,
  (forall e, In e es -> length (s_verts e) = 3%nat /\ 0 <= s_index e < Z.of_nat (length (ps_bubble st))) ->
  (forall e v, In e es -> In v (s_verts e) -> 0 <= v < Z.of_nat (length (ps_nov st))) ->
  (forall e v, In e es -> In v (map fst (s_facets e)) -> 0 <= v < Z.of_nat (length (ps_noe st))) -> NoDup (map s_index es) ->
  exists st', ofold (pScanElement s strict B Q) es st = Some st' /\
   length (ps_bubble st') = length (ps_bubble st) /\ length (ps_nov st') = length (ps_nov st) /\ length (ps_noe st') = length (ps_noe st) /\
   (forall e, In e es -> zget (ps_bubble st') (s_index e) = Some (if inSeg s 0 (s_index e) then B else -1)) /\
   (forall k, ~ In k (map s_index es) -> zget (ps_bubble st') k = zget (ps_bubble st) k) /\
   (strict = true -> forall k, 0 <= k < Z.of_nat (length (ps_nov st)) ->
      zget (ps_nov st') k = if existsb (fun e => inSeg s 0 (s_index e) && smem k (s_verts e)) es then Some false else zget (ps_nov st) k) /\
   (strict = true -> forall k, 0 <= k < Z.of_nat (length (ps_noe st)) ->
      zget (ps_noe st') k = if existsb (fun e => inSeg s 0 (s_index e) && smem k (map fst (s_facets e))) es then Some false else zget (ps_noe st) k).
Proof.
  induction es as [|e es IH]; intros st H1 H2 H3 ND; cbn [ofold].
  - exists st. repeat split; easy.
  - cbn [map] in ND. apply NoDup_cons_iff in ND as (NI & ND).
    destruct (H1 e (or_introl eq_refl)) as (V3 & RI).
    destruct (inSeg_spec s (s_index e) (c := 0)) as (C & _); [lia|]. cbn [Z.of_nat] in C.
    assert (X : exists st1, pScanElement s strict B Q st e = Some st1 /\
       length (ps_bubble st1) = length (ps_bubble st) /\ length (ps_nov st1) = length (ps_nov st) /\ length (ps_noe st1) = length (ps_noe st) /\
       (forall k, zget (ps_bubble st1) k = if k =? s_index e then Some (if inSeg s 0 (s_index e) then B else -1) else zget (ps_bubble st) k) /\
       (strict = true -> forall k, 0 <= k < Z.of_nat (length (ps_nov st)) ->
          zget (ps_nov st1) k = if inSeg s 0 (s_index e) && smem k (s_verts e) then Some false else zget (ps_nov st) k) /\
       (strict = true -> forall k, 0 <= k < Z.of_nat (length (ps_noe st)) ->
          zget (ps_noe st1) k = if inSeg s 0 (s_index e) && smem k (map fst (s_facets e)) then Some false else zget (ps_noe st) k)).
    { unfold pScanElement. rewrite V3. cbn [Nat.eqb orb negb]. rewrite C. cbn [obind]. destruct (inSeg s 0 (s_index e)).
      - destruct (zset_Some (ps_bubble st) (s_index e) B RI) as (b & E). rewrite E. cbn [obind].
        assert (Hb : length b = length (ps_bubble st) /\ forall k, zget b k = if k =? s_index e then Some B else zget (ps_bubble st) k).
        { split; [eapply zset_length; eauto|]. intros k. now rewrite (zset_get _ _ _ k E). }
        destruct Hb as (Hb1 & Hb2). destruct strict.
        + destruct (clearAll_spec (s_verts e) (ps_nov st)) as (l1 & A1 & L1 & P1); [intros; apply (H2 e); [now left|easy]|].
          destruct (clearAll_spec (map fst (s_facets e)) (ps_noe st)) as (l2 & A2 & L2 & P2); [intros; apply (H3 e); [now left|easy]|].
          rewrite A1. cbn [obind]. rewrite A2. cbn [obind]. eexists. split; [reflexivity|]. cbn [ps_bubble ps_nov ps_noe andb]. auto 8.
        + eexists. split; [reflexivity|]. cbn [ps_bubble ps_nov ps_noe]. repeat split; auto; discriminate.
      - destruct (zset_Some (ps_bubble st) (s_index e) (-1) RI) as (b & E). rewrite E. cbn [obind].
        eexists. split; [reflexivity|]. cbn [ps_bubble ps_nov ps_noe andb]. split; [eapply zset_length; eauto|]. do 2 (split; [reflexivity|]).
        split; [intros k; now rewrite (zset_get _ _ _ k E)|]. split; reflexivity. }
    destruct X as (st1 & X0 & X1 & X2 & X3 & X4 & X5 & X6). rewrite X0. cbn [obind].
    destruct (IH st1) as (st' & E & L1 & L2 & L3 & P1 & P2 & P3 & P4).
    + intros e' I. rewrite X1. apply H1. now right.
    + intros e' v I J. rewrite X2. apply (H2 e'); [now right|exact J].
    + intros e' v I J. rewrite X3. apply (H3 e'); [now right|exact J].
    + exact ND.
    + exists st'. split; [exact E|]. do 3 (split; [congruence|]). split; [|split; [|split]].
      * intros e' [<-|I]; [|now apply P1]. rewrite P2 by exact NI. now rewrite X4, Z.eqb_refl.
      * intros k N. rewrite P2 by (intro; apply N; now right). rewrite X4. destruct (Z.eqb_spec k (s_index e)); [|reflexivity]. exfalso; apply N; now left.
      * intros S k R. rewrite P3 by (auto; lia). rewrite X5 by auto. cbn [existsb]. destruct (inSeg s 0 (s_index e) && smem k (s_verts e)), (existsb _ es); reflexivity.
      * intros S k R. rewrite P4 by (auto; lia). rewrite X6 by auto. cbn [existsb]. destruct (inSeg s 0 (s_index e) && smem k (map fst (s_facets e))), (existsb _ es); reflexivity.
Qed.

Definition usedEB (g : sgrid) (s : segment) (strict : bool) (i : Z) : bool :=
  inSeg s 1 i && (negb strict || existsb (fun e => inSeg s 0 (s_index e) && smem i (map fst (s_facets e))) (g_elts g)).
Definition contB (s : segment) (strict : bool) (e : selt) : bool := negb strict || inSeg s 0 (s_index e).

Lemma inSegP s c i : (c < 4)%nat -> inSeg s c i = true <-> holds s c i.
Proof. intros L. now destruct (inSeg_spec s i L). Qed.

Lemma used_here g s strict e v : In e (g_elts g) -> hasVertex e v -> contB s strict e = true -> usedB g s strict v = inSeg s 2 v.
Proof.
  intros I H C. unfold usedB. assert (X : negb strict || existsb (fun e => inSeg s 0 (s_index e) && smem v (s_verts e)) (g_elts g) = true); [|now rewrite X, andb_true_r].
  unfold contB in C. destruct strict; [|reflexivity]. cbn [negb orb] in *. apply existsb_exists. exists e. split; [exact I|]. rewrite C. now apply smem_In.
Qed.
Lemma usedE_here g s strict e v : In e (g_elts g) -> hasFacet e v -> contB s strict e = true -> usedEB g s strict v = inSeg s 1 v.
Proof.
  intros I H C. unfold usedEB. assert (X : negb strict || existsb (fun e => inSeg s 0 (s_index e) && smem v (map fst (s_facets e))) (g_elts g) = true); [|now rewrite X, andb_true_r].
  unfold contB in C. destruct strict; [|reflexivity]. cbn [negb orb] in *. apply existsb_exists. exists e. split; [exact I|]. rewrite C. now apply smem_In.
Qed.

Lemma nodeOn_classify s p e n : nodeOn s p e n <->
  match classify p n with
  | Corner k => holds s 2 (vert e k)
  | Side k _ => holds s 1 (facet e k)
  | Inner => holds s 0 (s_index e)
  end.
Proof.
  unfold nodeOn, classify, bary, vert, facet. cbv zeta. destruct (p - fst n - snd n)%nat, (fst n), (snd n); reflexivity.
Qed.

Section Same.
Variable p : nat.
Hypothesis pos : (1 <= p)%nat.
Definition endA (e : selt) (k : nat) : Z := vert e (fst (edgeEnds k)).
Definition endB (e : selt) (k : nat) : Z := vert e (snd (edgeEnds k)).
Definition distinct (e : selt) : Prop := exists a b c, s_verts e = [a; b; c] /\ NoDup [a; b; c].
Lemma weight_bary e a b c n v : s_verts e = [a; b; c] ->
  weightAt p e n v = ((if Z.eqb a v then p - fst n - snd n else 0) + (if Z.eqb b v then fst n else 0) + (if Z.eqb c v then snd n else 0))%nat.
Proof. intros V. unfold weightAt, bary. rewrite V. cbn [combine map fst snd list_sum fold_right]. lia. Qed.
Lemma distinct_ne a b c : NoDup [a; b; c : Z] -> a <> b /\ a <> c /\ b <> c.
Proof. intros N. inversion N as [|? ? N1 N2]; subst. inversion N2 as [|? ? N3 _]; subst. cbn in *. intuition. Qed.
Lemma weight_corner e k v : distinct e -> (k < 3)%nat -> weightAt p e (cornerNode p k) v = if vert e k =? v then p else 0%nat.
Proof.
  intros (a & b & c & V & _) L. rewrite (weight_bary _ _ _ V). unfold vert. rewrite V. destruct k as [|[|[|k]]]; [| | |lia]; cbn [cornerNode fst snd nth];
    destruct (a =? v), (b =? v), (c =? v); lia.
Qed.
Lemma weight_side e k l v : distinct e -> (k < 3)%nat -> (1 <= l <= p - 1)%nat ->
  weightAt p e (sideNode p k l) v = if endA e k =? v then (p - l)%nat else if endB e k =? v then l else 0%nat.
Proof.
  intros (a & b & c & V & ND) L B. apply distinct_ne in ND. rewrite (weight_bary _ _ _ V). unfold endA, endB, vert. rewrite V. destruct k as [|[|[|k]]]; [| | |lia]; cbn [sideNode edgeEnds fst snd nth];
    destruct (Z.eqb_spec a v), (Z.eqb_spec b v), (Z.eqb_spec c v); lia.
Qed.
Lemma ends_ne e k : distinct e -> (k < 3)%nat -> endA e k <> endB e k.
Proof. intros (a & b & c & V & ND) L. apply distinct_ne in ND. unfold endA, endB, vert. rewrite V. destruct k as [|[|[|k]]]; cbn; lia. Qed.

Lemma same_cc e k e' k' : distinct e -> distinct e' -> (k < 3)%nat -> (k' < 3)%nat ->
  samePoint p e (cornerNode p k) e' (cornerNode p k') <-> vert e k = vert e' k'.
Proof.
  intros D D' L L'. split.
  - intros H. specialize (H (vert e k)). rewrite !weight_corner, Z.eqb_refl in H by auto. destruct (Z.eqb_spec (vert e' k') (vert e k)); lia.
  - intros E v. rewrite !weight_corner by auto. now rewrite E.
Qed.
Lemma same_cs e k e' k' l : distinct e -> distinct e' -> (k < 3)%nat -> (k' < 3)%nat -> (1 <= l <= p - 1)%nat ->
  ~ samePoint p e (cornerNode p k) e' (sideNode p k' l).
Proof.
  intros D D' L L' B H. pose proof (ends_ne D' L') as NE. pose proof (H (endA e' k')) as HA. pose proof (H (endB e' k')) as HB.
  rewrite weight_corner, weight_side in HA, HB by auto. rewrite Z.eqb_refl in HA. rewrite Z.eqb_refl in HB.
  destruct (Z.eqb_spec (vert e k) (endA e' k')), (Z.eqb_spec (vert e k) (endB e' k')), (Z.eqb_spec (endA e' k') (endB e' k')); lia.
Qed.
Lemma same_ss e k l e' k' l' : distinct e -> distinct e' -> (k < 3)%nat -> (k' < 3)%nat -> (1 <= l <= p - 1)%nat -> (1 <= l' <= p - 1)%nat ->
  samePoint p e (sideNode p k l) e' (sideNode p k' l') <->
  (endA e k = endA e' k' /\ endB e k = endB e' k' /\ l = l') \/ (endA e k = endB e' k' /\ endB e k = endA e' k' /\ l = (p - l')%nat).
Proof.
  intros D D' L L' B B'. pose proof (ends_ne D L) as NE. pose proof (ends_ne D' L') as NE'. split.
  - intros H. pose proof (H (endA e k)) as HA. pose proof (H (endB e k)) as HB. rewrite !weight_side, Z.eqb_refl in HA, HB by auto.
    destruct (Z.eqb_spec (endA e k) (endB e k)), (Z.eqb_spec (endA e' k') (endA e k)), (Z.eqb_spec (endA e' k') (endB e k)), (Z.eqb_spec (endB e' k') (endA e k)), (Z.eqb_spec (endB e' k') (endB e k)); lia.
  - intros H v. rewrite !weight_side by auto.
    destruct (Z.eqb_spec (endA e k) v), (Z.eqb_spec (endB e k) v), (Z.eqb_spec (endA e' k') v), (Z.eqb_spec (endB e' k') v); lia.
Qed.
Definition innerN (n : nat * nat) : Prop := (1 <= fst n)%nat /\ (1 <= snd n)%nat /\ (fst n + snd n < p)%nat.
Lemma weight_inner e n v : distinct e -> innerN n -> ((0 < weightAt p e n v)%nat <-> hasVertex e v).
Proof.
  intros (a & b & c & V & ND) (A & B & C). rewrite (weight_bary _ _ _ V). unfold hasVertex. rewrite V. cbn [In].
  destruct (Z.eqb_spec a v), (Z.eqb_spec b v), (Z.eqb_spec c v); intuition lia.
Qed.
Lemma same_ii e n e' n' : distinct e -> distinct e' -> innerN n -> innerN n' -> samePoint p e n e' n' -> forall v, In v (s_verts e) <-> In v (s_verts e').
Proof. intros D D' N N' H v. fold (hasVertex e v). fold (hasVertex e' v). rewrite <- (weight_inner v D N), <- (weight_inner v D' N'). now rewrite H. Qed.
Lemma same_nn e n n' : distinct e -> samePoint p e n e n' -> isNode p n -> isNode p n' -> n = n'.
Proof.
  intros (a & b & c & V & ND) H I I'. apply distinct_ne in ND. destruct n as [x y], n' as [x' y'].
  pose proof (H b) as HB. pose proof (H c) as HC. rewrite !(weight_bary _ _ _ V) in HB. rewrite !(weight_bary _ _ _ V) in HC. unfold isNode in *. cbn [fst snd] in *. rewrite !Z.eqb_refl in HB. rewrite !Z.eqb_refl in HC.
  destruct (Z.eqb_spec a b), (Z.eqb_spec b c), (Z.eqb_spec c b), (Z.eqb_spec a c); f_equal; lia.
Qed.
Lemma same_ci e k e' n : distinct e -> distinct e' -> (k < 3)%nat -> innerN n -> ~ samePoint p e (cornerNode p k) e' n.
Proof.
  intros D D' L N H.
  assert (X : forall v, hasVertex e' v -> v = vert e k).
  { intros v I. apply (weight_inner v D' N) in I. rewrite <- H, weight_corner in I by auto. destruct (Z.eqb_spec (vert e k) v); lia. }
  destruct D' as (a & b & c & V & ND). apply distinct_ne in ND. unfold hasVertex in X. rewrite V in X. cbn in X.
  pose proof (X a (or_introl eq_refl)). pose proof (X b (or_intror (or_introl eq_refl))). lia.
Qed.
Lemma same_si e k l e' n : distinct e -> distinct e' -> (k < 3)%nat -> (1 <= l <= p - 1)%nat -> innerN n -> ~ samePoint p e (sideNode p k l) e' n.
Proof.
  intros D D' L B N H.
  assert (X : forall v, hasVertex e' v -> v = endA e k \/ v = endB e k).
  { intros v I. apply (weight_inner v D' N) in I. rewrite <- H, weight_side in I by auto. destruct (Z.eqb_spec (endA e k) v), (Z.eqb_spec (endB e k) v); lia. }
  destruct D' as (a & b & c & V & ND). apply distinct_ne in ND. unfold hasVertex in X. rewrite V in X. cbn in X.
  pose proof (X a (or_introl eq_refl)). pose proof (X b (or_intror (or_introl eq_refl))). pose proof (X c (or_intror (or_intror (or_introl eq_refl)))). lia.
Qed.
Lemma samePoint_sym e n e' n' : samePoint p e n e' n' -> samePoint p e' n' e n.
Proof. intros H v. now rewrite H. Qed.
End Same.
