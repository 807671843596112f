From Coq Require Import Reals List Arith Bool Lia Lra Psatz Permutation.
Import ListNotations.
From Verif Require Import BoxModel GridModel GridSpec GridGeomModel GridProofs SphModel SphSpec SphProofs.
Set Implicit Arguments.
Unset Strict Implicit.

(** ---- number of new nodes ---- *)
Definition swap (k : nat * nat) := (snd k, fst k).
Lemma double_nodup K : NoDup K -> Forall (fun k => fst k < snd k) K -> NoDup (flat_map (fun k => [k; swap k]) K).
Proof.
  induction K as [|k r IH]; cbn; intros N F; [constructor|]. inversion_clear N as [|? ? N1 N2]. inversion_clear F as [|? ? F1 F2]. specialize (IH N2 F2).
  assert (A : forall x, In x (flat_map (fun k => [k; swap k]) r) -> exists y, In y r /\ fst y < snd y /\ (x = y \/ x = swap y)).
  { intros x I. apply in_flat_map in I as (y & I & J). rewrite Forall_forall in F2. exists y. split; [exact I|]. split; [now apply F2|]. cbn in J. intuition congruence. }
  constructor; [|constructor; [|exact IH]].
  - intros [E|I]. { apply (f_equal fst) in E. cbn in E. lia. } apply A in I as (y & I & L & [E|E]); [congruence|]. subst k. cbn in F1. lia.
  - intro I. apply A in I as (y & I & L & [E|E]). { subst y. cbn in L. lia. } apply N1. destruct k as [k1 k2], y as [y1 y2]. unfold swap in E. cbn in E. injection E as <- <-. exact I.
Qed.
Lemma double_length (K : list (nat * nat)) : length (flat_map (fun k => [k; swap k]) K) = 2 * length K.
Proof. induction K; cbn; lia. Qed.
Lemma sides_length es : length (flat_map directedSides es) = 3 * length es.
Proof. induction es as [|[[a b] c] r IH]; cbn; lia. Qed.
Lemma sides_nth es k d : nth_error (flat_map directedSides es) k = Some d <-> sideAt es (k / 3) (k mod 3) d.
Proof.
  rewrite (@nth_flat_map_const elt (nat * nat) directedSides 3) by (try lia; intros [[? ?] ?]; reflexivity). unfold sideAt.
  destruct (nth_error es (k / 3)) as [e|]; split; intro H.
  - eauto. - destruct H as (e' & E & H). congruence. - discriminate. - destruct H as (e' & E & H). discriminate.
Qed.
Lemma sides_in es d : In d (flat_map directedSides es) <-> exists t i, sideAt es t i d.
Proof.
  split.
  - intro I. apply In_nth_error in I as (k & E). apply sides_nth in E. eauto.
  - intros (t & i & e & E & D). apply in_flat_map. exists e. split; eapply nth_error_In; eauto.
Qed.
Lemma sides_nodup es : closedOriented es -> NoDup (flat_map directedSides es).
Proof.
  intros (U & _). apply NoDup_nth_error. intros i j L E. destruct (nth_error (flat_map directedSides es) i) as [d|] eqn:A; [|apply nth_error_None in A; lia].
  symmetry in E. apply sides_nth in A. apply sides_nth in E. destruct (U _ _ _ _ _ A E) as (X & Y).
  rewrite (Nat.div_mod i 3), (Nat.div_mod j 3) by lia. congruence.
Qed.
Lemma keys_in es k : In k (flat_map keysOf es) <-> exists t i p q, sideAt es t i (p, q) /\ k = lineKey p q.
Proof.
  rewrite in_flat_map. split.
  - intros ([[a b] c] & I & J). apply In_nth_error in I as (t & E). cbn in J.
    destruct J as [<-|[<-|[<-|[]]]]; [exists t, 0|exists t, 1|exists t, 2]; eexists; eexists; (split; [eexists; split; [exact E|reflexivity]|reflexivity]).
  - intros (t & i & p & q & (e & E & D) & ->). exists e. split; [eapply nth_error_In; eauto|]. destruct e as [[a b] c].
    destruct i as [|[|[|i]]]; cbn in D; try (destruct i; discriminate); injection D as <- <-; cbn; auto.
Qed.
Lemma count_keys es : closedOriented es -> (forall t i p q, sideAt es t i (p, q) -> p <> q) ->
  2 * length (addAll [] (flat_map keysOf es)) = 3 * length es.
Proof.
  intros C D. set (K := addAll [] (flat_map keysOf es)).
  assert (IK : forall k, In k K <-> exists t i p q, sideAt es t i (p, q) /\ k = lineKey p q).
  { intro k. unfold K. rewrite addAll_in, keys_in. cbn. tauto. }
  assert (LT : forall p q, p <> q -> fst (lineKey p q) < snd (lineKey p q)).
  { intros p q N. unfold lineKey. destruct (Nat.ltb_spec p q); cbn; lia. }
  rewrite <- double_length, <- sides_length. apply Permutation_length, NoDup_Permutation.
  - apply double_nodup; [apply addAll_nodup; constructor|]. apply Forall_forall. intros k I. apply IK in I as (t & i & p & q & S & ->). apply LT. eauto.
  - now apply sides_nodup.
  - intro x. rewrite sides_in, in_flat_map. split.
    + intros (k & I & J). apply IK in I as (t & i & p & q & S & ->). destruct (proj2 C _ _ _ _ S) as (t' & i' & S').
      destruct (lineKey_or p q) as [E|E]; rewrite E in J; cbn in J; unfold swap in J; cbn in J; destruct J as [<-|[<-|[]]]; eauto.
    + intros (t & i & S). destruct x as [p q]. exists (lineKey p q). split; [apply IK; eauto 6|].
      destruct (lineKey_or p q) as [->| ->]; cbn; unfold swap; cbn; auto.
Qed.

(** ---- geometry ---- *)
Local Open Scope R_scope.
Definition scale (s : R) (p : point) : point := (s * px p, s * py p, s * pz p).
Definition det (a b c : point) : R := pdot (pcross a b) c.
Definition good (a b c : point) : Prop := 0 <= pdot a b /\ 0 <= pdot b c /\ 0 <= pdot c a /\ 0 < det a b c.
Ltac pt := unfold good, det, scale, midpoint, pdot, pcross, psub, px, py, pz in *; cbn [fst snd] in *.
Lemma dot_scale s t a b : pdot (scale s a) (scale t b) = s * t * pdot a b. Proof. pt. ring. Qed.
Lemma det_scale s t u a b c : det (scale s a) (scale t b) (scale u c) = s * t * u * det a b c. Proof. pt. ring. Qed.
Lemma good_scale s t u a b c : 0 < s -> 0 < t -> 0 < u -> good a b c -> good (scale s a) (scale t b) (scale u c).
Proof.
  intros S T U (A & B & C & D). unfold good. rewrite !dot_scale, det_scale. repeat split.
  - apply Rmult_le_pos; [|exact A]. nra. - apply Rmult_le_pos; [|exact B]. nra. - apply Rmult_le_pos; [|exact C]. nra.
  - repeat apply Rmult_lt_0_compat; assumption.
Qed.
Lemma mid_dot a b c d : pdot (midpoint a b) (midpoint c d) = (pdot a c + pdot a d + pdot b c + pdot b d) / 4. Proof. pt. field. Qed.
Lemma mid_dot_l a c d : pdot a (midpoint c d) = (pdot a c + pdot a d) / 2. Proof. pt. field. Qed.
Lemma mid_dot_r a c d : pdot (midpoint c d) a = (pdot a c + pdot a d) / 2. Proof. pt. field. Qed.
Lemma dot_sym a b : pdot a b = pdot b a. Proof. pt. ring. Qed.
Lemma good_mids a b c : pdot a a = 1 -> pdot b b = 1 -> pdot c c = 1 -> good a b c ->
  let u := midpoint a b in let v := midpoint b c in let w := midpoint c a in
  good a u w /\ good u b v /\ good v c w /\ good u v w.
Proof.
  intros A B C (X & Y & Z & D) u v w. unfold u, v, w, good.
  assert (D1 : det a (midpoint a b) (midpoint c a) = det a b c / 4) by (pt; field).
  assert (D2 : det (midpoint a b) b (midpoint b c) = det a b c / 4) by (pt; field).
  assert (D3 : det (midpoint b c) c (midpoint c a) = det a b c / 4) by (pt; field).
  assert (D4 : det (midpoint a b) (midpoint b c) (midpoint c a) = det a b c / 4) by (pt; field).
  rewrite D1, D2, D3, D4. rewrite !mid_dot, !mid_dot_l, !mid_dot_r. 
  rewrite (dot_sym b a), (dot_sym c b), (dot_sym a c), A, B, C in *. repeat split; lra.
Qed.
Lemma mid_pos a b : pdot a a = 1 -> pdot b b = 1 -> 0 <= pdot a b -> 0 < pdot (midpoint a b) (midpoint a b).
Proof. intros A B X. rewrite mid_dot, (dot_sym b a), A, B. lra. Qed.
Lemma normalise_ok p : 0 < pdot p p -> exists s, 0 < s /\ normalise p = Some (scale s p) /\ pdot (scale s p) (scale s p) = 1.
Proof.
  intro H. assert (L : lengthOf p = sqrt (pdot p p)) by reflexivity. pose proof (sqrt_lt_R0 _ H) as S.
  exists (/ lengthOf p). rewrite L. split; [now apply Rinv_0_lt_compat|]. unfold normalise. rewrite L.
  destruct (Req_EM_T (sqrt (pdot p p)) 0) as [E|E]; [lra|]. split.
  - f_equal. unfold scale. f_equal; [f_equal|]; unfold Rdiv; ring.
  - rewrite dot_scale. rewrite <- (sqrt_sqrt (pdot p p)) at 3 by lra. field. exact E.
Qed.

Definition inv (m : list point * list elt) : Prop :=
  let (nodes, es) := m in
  Forall (nodesBelow (length nodes)) es /\ closedOriented es /\
  Forall (fun p => pdot p p = 1) nodes /\
  (forall e, In e es -> exists a b c, cornersOf nodes e a b c /\ good a b c) /\
  (forall i, (i < length nodes)%nat -> exists e s, In e es /\ (s < 3)%nat /\ enode e s = i).

Lemma mapOpt_nth A B (f : A -> option B) l r : mapOpt f l = Some r -> length r = length l /\
  (forall i a, nth_error l i = Some a -> exists b, f a = Some b /\ nth_error r i = Some b) /\
  (forall i b, nth_error r i = Some b -> exists a, nth_error l i = Some a /\ f a = Some b).
Proof.
  revert r. induction l as [|x l IH]; cbn; intros r E.
  - injection E as <-. split; [reflexivity|]. split; intros i a H; destruct i; discriminate.
  - destruct (f x) as [b|] eqn:F; [|discriminate]. destruct (mapOpt f l) as [s|]; [|discriminate]. injection E as <-.
    destruct (IH _ eq_refl) as (L & P & Q). split; [cbn; congruence|]. split; intros [|i] a H; cbn in H.
    + injection H as <-. eauto. + now apply P. + injection H as <-. exists x. auto. + now apply Q.
Qed.
Lemma mapOpt_total A B (f : A -> option B) l : (forall a, In a l -> exists b, f a = Some b) -> exists r, mapOpt f l = Some r.
Proof.
  induction l as [|x l IH]; cbn; intro H; [eauto|]. destruct (H x) as (b & ->); [now left|]. destruct IH as (r & ->); [intros a I; apply H; now right|]. eauto.
Qed.

Lemma det_cyc a b c : det a b c = det b c a. Proof. pt. ring. Qed.
Lemma det_swap a b c : det b a c = - det a b c. Proof. pt. ring. Qed.
Lemma det_same a c : det a a c = 0. Proof. pt. ring. Qed.

Lemma step nodes es : inv (nodes, es) -> exists nodes' es', refineTriangles (nodes, es) = Some (nodes', es') /\ inv (nodes', es') /\
  length es' = (4 * length es)%nat /\ (2 * length nodes' = 2 * length nodes + 3 * length es)%nat.
Proof.
  intros (BL & CL & UN & GE & US). set (n0 := length nodes). set (K := addAll [] (flat_map keysOf es)).
  pose proof (@refineLoop_ok nodes es [] BL) as RL. unfold refineTriangles. cbn [fst snd].
  assert (ST0 : SState [] nodes (length nodes) = ST nodes []). { unfold ST. cbn. now rewrite app_nil_r, Nat.add_0_r. }
  rewrite ST0, RL. clear RL ST0. fold K. cbn [ss_nodes ST].
  set (m := mid nodes K). set (U := nodes ++ map (midAt nodes) K).
  (* sides *)
  assert (SD : forall t i p q, sideAt es t i (p, q) -> In (lineKey p q) K).
  { intros. unfold K. rewrite addAll_in, keys_in. right. eauto 6. }
  assert (CO : forall t i p q, sideAt es t i (p, q) -> exists a b, nth_error nodes p = Some a /\ nth_error nodes q = Some b /\
      pdot a a = 1 /\ pdot b b = 1 /\ 0 <= pdot a b /\ p <> q).
  { intros t i p q (e & E & D). destruct (GE e (nth_error_In _ _ E)) as (a & b & c & (A & B & C) & G).
    destruct e as [[e0 e1] e2]. cbn [enode fst snd] in A, B, C. rewrite Forall_forall in UN.
    pose proof (UN _ (nth_error_In _ _ A)) as UA. pose proof (UN _ (nth_error_In _ _ B)) as UB. pose proof (UN _ (nth_error_In _ _ C)) as UC.
    destruct G as (G1 & G2 & G3 & G4).
    destruct i as [|[|[|i]]]; cbn in D; try (destruct i; discriminate); injection D as <- <-.
    - exists a, b. do 5 (split; [assumption|]). intros ->. assert (a = b) by congruence. subst b. rewrite det_same in G4. lra.
    - exists b, c. do 5 (split; [assumption|]). intros ->. assert (b = c) by congruence. subst c. rewrite det_cyc, det_same in G4. lra.
    - exists c, a. do 5 (split; [assumption|]). intros ->. assert (a = c) by congruence. subst c. rewrite det_cyc, det_cyc, det_same in G4. lra. }
  assert (MU : forall p q a b, In (lineKey p q) K -> nth_error nodes p = Some a -> nth_error nodes q = Some b -> nth_error U (m p q) = Some (midpoint a b)).
  { intros p q a b I A B. unfold U, m, mid. rewrite nth_error_app2 by lia. replace (length nodes + indexOf K (lineKey p q) - length nodes)%nat with (indexOf K (lineKey p q)) by lia.
    rewrite nth_error_map, (indexOf_nth K _ I). cbn. f_equal. now apply midAt_key. }
  assert (LU : length U = (n0 + length K)%nat). { unfold U. rewrite app_length, map_length. reflexivity. }
  (* normalisation *)
  assert (POS : forall p, In p U -> 0 < pdot p p).
  { intros p I. unfold U in I. apply in_app_iff in I as [I|I].
    - rewrite Forall_forall in UN. rewrite (UN _ I). lra.
    - apply in_map_iff in I as (k & <- & I). unfold K in I. rewrite addAll_in, keys_in in I. destruct I as [[]|(t & i & p & q & S & ->)].
      destruct (CO _ _ _ _ S) as (a & b & A & B & UA & UB & X & _). rewrite (midAt_key nodes _ _ A B). now apply mid_pos. }
  destruct (@mapOpt_total _ _ normalise U) as (nodes' & EN).
  { intros p I. destruct (normalise_ok (POS _ I)) as (s & _ & E & _). eauto. }
  rewrite EN. exists nodes', (flat_map (kids m) es). split; [reflexivity|].
  destruct (mapOpt_nth EN) as (LN & NF & NB).
  assert (CK : (2 * length K = 3 * length es)%nat). { apply count_keys; [exact CL|]. intros t i p q S. destruct (CO _ _ _ _ S) as (a & b & H). tauto. }
  assert (LE : length (flat_map (kids m) es) = (4 * length es)%nat). { generalize m as f. clear. intro f. induction es as [|e r IH]; [reflexivity|]. cbn [flat_map length]. rewrite app_length, IH. change (length (kids f e)) with 4%nat. lia. }
  split; [|split; [exact LE|rewrite LN, LU; unfold n0; lia]].
  assert (SCL : forall i p, nth_error U i = Some p -> exists s, 0 < s /\ nth_error nodes' i = Some (scale s p)).
  { intros i p E. destruct (NF _ _ E) as (b & F & G). destruct (normalise_ok (POS _ (nth_error_In _ _ E))) as (s & S & E' & _). exists s. split; [exact S|]. congruence. }
  assert (MLT : forall t i p q, sideAt es t i (p, q) -> (n0 <= m p q < length nodes')%nat).
  { intros t i p q S. rewrite LN, LU. unfold m, mid. fold n0. pose proof (indexOf_lt K _ (SD _ _ _ _ S)). lia. }
  assert (SE : forall e, In e es -> exists t, sideAt es t 0 (enode e 0, enode e 1) /\ sideAt es t 1 (enode e 1, enode e 2) /\ sideAt es t 2 (enode e 2, enode e 0)).
  { intros e I. apply In_nth_error in I as (t & E). exists t. destruct e as [[x y] z]. repeat split; (eexists; split; [exact E|reflexivity]). }
  assert (OLD : forall i, (i < n0)%nat -> nth_error U i = nth_error nodes i). { intros i L. unfold U. now apply nth_error_app1. }
  cbn [inv]. split; [|split; [|split; [|split]]].
  - apply Forall_forall. intros e' I. apply in_flat_map in I as (e & I & J). destruct (SE e I) as (t & S0 & S1 & S2).
    apply MLT in S0. apply MLT in S1. apply MLT in S2. rewrite Forall_forall in BL. destruct (BL _ I) as (B0 & B1 & B2). fold n0 in B0, B1, B2.
    assert (n0 <= length nodes')%nat by lia. destruct e as [[x y] z]. cbn [enode fst snd] in *.
    cbn in J. destruct J as [<-|[<-|[<-|[<-|[]]]]]; unfold nodesBelow; cbn; lia.
  - apply (@kids_closed n0 m es BL) with
      (pos := fun a b c => exists A B C, nth_error nodes a = Some A /\ nth_error nodes b = Some B /\ nth_error nodes c = Some C /\ 0 < det A B C).
    + intros p q. unfold m, mid. now rewrite lineKey_sym.
    + intros t i p q S. apply (MLT _ _ _ _ S).
    + intros t i p q t' i' p' q' S S' E. unfold m, mid in E. apply lineKey_inj. apply (@indexOf_inj K); [eapply SD; eauto|eapply SD; eauto|lia].
    + exact CL.
    + intros e I. destruct (GE e I) as (a & b & c & (A & B & C) & G). exists a, b, c. unfold good in G. tauto.
    + intros a b c (A & B & C & EA & EB & EC & D). exists B, C, A. rewrite <- det_cyc. auto.
    + intros a b c (A & B & C & EA & EB & EC & D) (A' & B' & C' & EA' & EB' & EC' & D'). assert (A' = B /\ B' = A /\ C' = C) as (-> & -> & ->) by (repeat split; congruence).
      rewrite det_swap in D'. lra.
    + intros a b c (A & B & C & EA & EB & EC & D) ->. assert (B = A) by congruence. subst B. rewrite det_same in D. lra.
  - apply Forall_forall. intros p I. apply In_nth_error in I as (i & E). destruct (NB _ _ E) as (a & EU & F).
    destruct (normalise_ok (POS _ (nth_error_In _ _ EU))) as (s & S & E' & UU). assert (p = scale s a) by congruence. now subst p.
  - intros e' I. apply in_flat_map in I as (e & I & J). destruct (SE e I) as (t & S0 & S1 & S2). destruct (GE e I) as (a & b & c & (A & B & C) & G).
    rewrite Forall_forall in UN. rewrite Forall_forall in BL. destruct (BL _ I) as (B0 & B1 & B2). fold n0 in B0, B1, B2.
    destruct (good_mids (UN _ (nth_error_In _ _ A)) (UN _ (nth_error_In _ _ B)) (UN _ (nth_error_In _ _ C)) G) as (G0 & G1 & G2 & G3).
    pose proof (MU _ _ _ _ (SD _ _ _ _ S0) A B) as M0. pose proof (MU _ _ _ _ (SD _ _ _ _ S1) B C) as M1. pose proof (MU _ _ _ _ (SD _ _ _ _ S2) C A) as M2.
    rewrite <- OLD in A by (destruct e as [[x y] z]; exact B0). rewrite <- OLD in B by (destruct e as [[x y] z]; exact B1). rewrite <- OLD in C by (destruct e as [[x y] z]; exact B2).
    destruct (SCL _ _ A) as (sa & PA & EA). destruct (SCL _ _ B) as (sb & PB & EB). destruct (SCL _ _ C) as (sc & PC & EC).
    destruct (SCL _ _ M0) as (s0 & P0 & E0). destruct (SCL _ _ M1) as (s1 & P1 & E1). destruct (SCL _ _ M2) as (s2 & P2 & E2).
    cbn in J. destruct J as [<-|[<-|[<-|[<-|[]]]]].
    + exists (scale sa a), (scale s0 (midpoint a b)), (scale s2 (midpoint c a)). split; [repeat split; assumption|]. now apply good_scale.
    + exists (scale s0 (midpoint a b)), (scale sb b), (scale s1 (midpoint b c)). split; [repeat split; assumption|]. now apply good_scale.
    + exists (scale s1 (midpoint b c)), (scale sc c), (scale s2 (midpoint c a)). split; [repeat split; assumption|]. now apply good_scale.
    + exists (scale s0 (midpoint a b)), (scale s1 (midpoint b c)), (scale s2 (midpoint c a)). split; [repeat split; assumption|]. now apply good_scale.
  - intros i L. destruct (Nat.lt_ge_cases i n0) as [O|O].
    + destruct (US i O) as (e & s & I & S & E). destruct s as [|[|[|]]]; try lia.
      * exists (enode e 0, m (enode e 0) (enode e 1), m (enode e 2) (enode e 0)), 0%nat. split; [|split; [lia|exact E]]. apply in_flat_map. exists e. split; [exact I|]. cbn. auto.
      * exists (m (enode e 0) (enode e 1), enode e 1, m (enode e 1) (enode e 2)), 1%nat. split; [|split; [lia|exact E]]. apply in_flat_map. exists e. split; [exact I|]. cbn. auto.
      * exists (m (enode e 1) (enode e 2), enode e 2, m (enode e 2) (enode e 0)), 1%nat. split; [|split; [lia|exact E]]. apply in_flat_map. exists e. split; [exact I|]. cbn. auto.
    + rewrite LN, LU in L. destruct (nth_error K (i - n0)) as [k|] eqn:EK; [|apply nth_error_None in EK; lia].
      pose proof (nth_error_In _ _ EK) as IK.
      assert (IX : indexOf K k = (i - n0)%nat).
      { apply (proj1 (NoDup_nth_error K)); [apply addAll_nodup; constructor|now apply indexOf_lt|]. rewrite (indexOf_nth K _ IK). congruence. }
      unfold K in IK. rewrite addAll_in, keys_in in IK. destruct IK as [[]|(t & j & p & q & (e & E & D) & ->)].
      assert (MI : m p q = i). { unfold m, mid. fold n0. lia. }
      pose proof (nth_error_In _ _ E) as I. destruct e as [[x y] z].
      exists (m x y, m y z, m z x). destruct j as [|[|[|j]]]; cbn in D; try (destruct j; discriminate); injection D as <- <-; [exists 0%nat|exists 1%nat|exists 2%nat];
      (split; [apply in_flat_map; eexists; split; [exact I|cbn; auto]|split; [lia|exact MI]]).
Qed.

Definition key_dec (a b : nat * nat) : {a = b} + {a <> b}.
Proof. decide equality; apply Nat.eq_dec. Defined.
Lemma octahedron_inv : inv (octahedronNodes, octahedronElements).
Proof.
  cbn [inv]. split; [|split; [|split; [|split]]].
  - unfold octahedronElements, nodesBelow. repeat constructor; cbn; lia.
  - assert (D : forall t i d, sideAt octahedronElements t i d <-> nth_error (flat_map directedSides octahedronElements) (3 * t + i) = Some d /\ (i < 3)%nat).
    { intros t i d. split.
      - intros S. assert (I : (i < 3)%nat). { destruct S as ([[a b] c] & E & S). destruct i as [|[|[|i]]]; try lia. destruct i; discriminate. }
        split; [|exact I]. apply sides_nth. rewrite Nat.mul_comm, Nat.add_comm, Nat.div_add, Nat.mod_add, Nat.div_small, Nat.mod_small by lia. exact S.
      - intros (S & I). apply sides_nth in S. rewrite Nat.mul_comm, Nat.add_comm, Nat.div_add, Nat.mod_add, Nat.div_small, Nat.mod_small in S by lia. exact S. }
    set (L := flat_map directedSides octahedronElements) in *.
    assert (ND : NoDup L). { assert (E : nodup key_dec L = L) by (vm_compute; reflexivity). rewrite <- E. apply NoDup_nodup. }
    split.
    + intros t t' i i' d A B. apply D in A as (A & I). apply D in B as (B & I').
      assert ((3 * t + i)%nat = (3 * t' + i')%nat); [|lia]. apply (proj1 (NoDup_nth_error L) ND); [apply nth_error_Some; congruence|congruence].
    + intros t i p q A. apply D in A as (A & I). apply nth_error_In in A.
      assert (F : forallb (fun d => existsb (keyEqb (swap d)) L) L = true) by (vm_compute; reflexivity).
      rewrite forallb_forall in F. specialize (F _ A). apply existsb_exists in F as (y & J & E). destruct (keyEqb_spec (swap (p, q)) y) as [E'|]; [|discriminate]. rewrite <- E' in J.
      apply sides_in in J. exact J.
  - unfold octahedronNodes. repeat constructor; pt; lra.
  - intros e I. unfold octahedronElements in I. cbn in I.
    repeat (destruct I as [<-|I]; [eexists; eexists; eexists; split; [repeat split; reflexivity|]; pt; repeat split; lra|]). destruct I.
  - intros i L. cbn in L. destruct i as [|[|[|[|[|[|]]]]]]; try lia.
    + exists (2, 4, 0)%nat, 2%nat. repeat split; cbn; auto; lia.
    + exists (1, 4, 2)%nat, 0%nat. repeat split; cbn; auto; lia.
    + exists (2, 4, 0)%nat, 0%nat. repeat split; cbn; auto; lia.
    + exists (3, 4, 1)%nat, 0%nat. repeat split; cbn; auto; lia.
    + exists (2, 4, 0)%nat, 1%nat. repeat split; cbn; auto; lia.
    + exists (5, 2, 0)%nat, 0%nat. repeat split; cbn; tauto || lia.
Qed.

Lemma refineTimes_ok n : forall m, inv m -> exists m', refineTimes n m = Some m' /\ inv m' /\
  (length (snd m') = 4 ^ n * length (snd m))%nat /\ (2 * length (fst m') + length (snd m) = 2 * length (fst m) + length (snd m'))%nat.
Proof.
  induction n as [|n IH]; intros m I. { exists m. cbn. repeat split; auto; lia. }
  destruct m as [nodes es]. destruct (step I) as (nodes' & es' & E & I' & L1 & L2). cbn [refineTimes]. rewrite E.
  destruct (IH _ I') as (m' & E' & I'' & L3 & L4). exists m'. split; [exact E'|]. split; [exact I''|]. cbn [fst snd] in *.
  rewrite L3, Nat.pow_succ_r' , L1. split; lia.
Qed.
