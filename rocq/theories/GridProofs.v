(** Proofs for C22, C23, C28. *)
From Coq Require Import List Arith Bool Lia.
Import ListNotations.
From Verif Require Import Base GridModel GridSpec.

(** ---- pushAll ---- *)
Lemma pushAll_gen l : forall f n,
  fold_left (fun f p => push f (fst p) (snd p)) l f n = f n ++ map snd (filter (fun p => fst p =? n) l).
Proof.
  induction l as [|[k v] l IH]; intros f n; cbn [fold_left filter map fst snd]; [now rewrite app_nil_r|].
  rewrite IH. unfold push. rewrite (Nat.eqb_sym n k). destruct (k =? n); cbn [map snd]; [|reflexivity].
  now rewrite <- app_assoc.
Qed.
Lemma pushAll_spec l n : pushAll l n = map snd (filter (fun p => fst p =? n) l).
Proof. unfold pushAll. now rewrite pushAll_gen. Qed.
Lemma in_pushAll l n v : In v (pushAll l n) <-> In (n, v) l.
Proof.
  rewrite pushAll_spec, in_map_iff. split.
  - intros ([k w] & <- & H). apply filter_In in H. destruct H as [H E]. apply Nat.eqb_eq in E. cbn in *. now subst.
  - intros H. exists (n, v). split; [reflexivity|]. apply filter_In. split; [exact H|apply Nat.eqb_refl].
Qed.

Lemma in_combine_seq A (l : list A) : forall k i x, In (i, x) (combine (seq k (length l)) l) <-> k <= i /\ nth_error l (i - k) = Some x.
Proof.
  induction l as [|a l IH]; intros k i x; cbn [length seq combine In].
  - split; [tauto|]. intros [_ H]. destruct (i - k); discriminate.
  - rewrite IH. split.
    + intros [H|[H1 H2]].
      * inversion H; subst. split; [lia|]. now rewrite Nat.sub_diag.
      * split; [lia|]. replace (i - k) with (S (i - S k)) by lia. exact H2.
    + intros [H1 H2]. destruct (Nat.eq_dec i k) as [->|Hne].
      * left. rewrite Nat.sub_diag in H2. cbn in H2. congruence.
      * right. split; [lia|]. replace (i - k) with (S (i - S k)) in H2 by lia. exact H2.
Qed.
Lemma in_combine_seq0 A (l : list A) i x : In (i, x) (combine (seq 0 (length l)) l) <-> nth_error l i = Some x.
Proof. rewrite in_combine_seq, Nat.sub_0_r. intuition lia. Qed.

(** ---- edges ---- *)
Definition ord (a b : nat) : nat * nat := if a <? b then (b, a) else (a, b).
Definition einv (st : estate) : Prop :=
  NoDup (es_edges st) /\ (forall n0 n1 k, In (n1, k) (es_index st n0) <-> nth_error (es_edges st) k = Some (n0, n1)) .

Lemma lookup_Some l n1 k : lookupEdge l n1 = Some k -> In (n1, k) l.
Proof.
  induction l as [|[a b] l IH]; cbn; [discriminate|]. destruct (Nat.eqb_spec n1 a) as [->|H].
  - intros E. inversion E. now left.
  - intros E. right. now apply IH.
Qed.
Lemma lookup_None l n1 : lookupEdge l n1 = None -> forall k, ~ In (n1, k) l.
Proof.
  induction l as [|[a b] l IH]; cbn; [intros _ k []|]. destruct (Nat.eqb_spec n1 a) as [->|H]; [discriminate|].
  intros E k [He|Hi]; [inversion He; congruence|]. now apply (IH E k).
Qed.

Lemma addSide_ok nn st a b : einv st -> a < nn -> b < nn ->
  exists st' k, addSide nn st a b = Some (st', k) /\ einv st' /\
    nth_error (es_edges st') k = Some (ord a b) /\
    (st' = st \/ es_edges st' = es_edges st ++ [ord a b]) /\
    (forall e, In e (es_edges st') <-> In e (es_edges st) \/ e = ord a b).
Proof.
  intros [Hnd Hix] Ha Hb. unfold addSide.
  fold (ord a b). destruct (ord a b) as [n0 n1] eqn:Eo.
  assert (Hn0 : n0 < nn) by (unfold ord in Eo; destruct (a <? b); inversion Eo; subst; assumption).
  apply Nat.ltb_lt in Hn0. rewrite Hn0.
  destruct (lookupEdge (es_index st n0) n1) as [k|] eqn:El.
  - apply lookup_Some, Hix in El. exists st, k. split; [reflexivity|]. split; [split; assumption|].
    split; [exact El|]. split; [now left|]. intros e. split; [now left|].
    intros [H| ->]; [exact H|]. eapply nth_error_In; exact El.
  - pose proof (lookup_None _ _ El) as Hno.
    assert (Hnotin : ~ In (n0, n1) (es_edges st)).
    { intros H. apply In_nth_error in H. destruct H as (k & Hk). apply Hix in Hk. exact (Hno k Hk). }
    eexists _, _. split; [reflexivity|]. cbn [es_edges es_index]. split; [split|split; [|split]]; cbn [es_edges es_index].
    + apply NoDup_app; [exact Hnd|constructor; [intros []|constructor]|]. intros x Hx [<-|[]]. contradiction.
    + intros m0 m1 j. destruct (Nat.eqb_spec m0 n0) as [->|Hne].
      * rewrite in_app_iff, Hix. cbn [In]. split.
        -- intros [H|[H|[]]].
           ++ rewrite nth_error_app1; [exact H|]. apply nth_error_Some. congruence.
           ++ inversion H; subst. rewrite nth_error_app2, Nat.sub_diag by lia. reflexivity.
        -- intros H. destruct (Nat.lt_ge_cases j (length (es_edges st))) as [Hj|Hj].
           ++ rewrite nth_error_app1 in H by exact Hj. now left.
           ++ rewrite nth_error_app2 in H by exact Hj. destruct (j - length (es_edges st)) as [|q] eqn:Ej; cbn in H.
              ** inversion H; subst. right; left. f_equal. lia.
              ** destruct q; discriminate.
      * rewrite Hix. split.
        -- intros H. rewrite nth_error_app1; [exact H|]. apply nth_error_Some. congruence.
        -- intros H. destruct (Nat.lt_ge_cases j (length (es_edges st))) as [Hj|Hj].
           ++ now rewrite nth_error_app1 in H by exact Hj.
           ++ rewrite nth_error_app2 in H by exact Hj. destruct (j - length (es_edges st)) as [|q] eqn:Ej; cbn in H.
              ** inversion H; subst. congruence.
              ** destruct q; discriminate.
    + rewrite nth_error_app2, Nat.sub_diag by lia. reflexivity.
    + now right.
    + intros e. rewrite in_app_iff. cbn. intuition.
Qed.

(** extension: edges are only appended *)
Definition extends (st st' : estate) : Prop := exists l, es_edges st' = es_edges st ++ l.
Lemma extends_nth st st' k e : extends st st' -> nth_error (es_edges st) k = Some e -> nth_error (es_edges st') k = Some e.
Proof. intros [l E] H. rewrite E, nth_error_app1; [exact H|]. apply nth_error_Some. congruence. Qed.
Lemma extends_refl st : extends st st.
Proof. exists []. now rewrite app_nil_r. Qed.
Lemma extends_trans a b c : extends a b -> extends b c -> extends a c.
Proof. intros [l E] [m F]. exists (l ++ m). now rewrite F, E, app_assoc. Qed.

Definition sideOrd (e : elt) (i : nat) : nat * nat :=
  ord (enode e (fst (localEdgeNodes i))) (enode e (snd (localEdgeNodes i))).

Lemma addElement_ok nn st e : einv st -> nodesBelow nn e ->
  exists st' t, addElement nn st e = Some (st', t) /\ einv st' /\ extends st st' /\
    (forall i, i < 3 -> nth_error (es_edges st') (enode t i) = Some (sideOrd e i)) /\
    (forall x, In x (es_edges st') <-> In x (es_edges st) \/ exists i, i < 3 /\ x = sideOrd e i).
Proof.
  intros Hi (H0 & H1 & H2). destruct e as [[a b] c]. cbn [fst snd] in *.
  unfold addElement. cbn [localEdgeNodes enode fst snd].
  destruct (addSide_ok nn st a b Hi H0 H1) as (s1 & k0 & E0 & I1 & N0 & X0 & M0). rewrite E0.
  destruct (addSide_ok nn s1 c a I1 H2 H0) as (s2 & k1 & E1 & I2 & N1 & X1 & M1). rewrite E1.
  destruct (addSide_ok nn s2 b c I2 H1 H2) as (s3 & k2 & E2 & I3 & N2 & X2 & M2). rewrite E2.
  assert (X : forall s s' p, (s' = s \/ es_edges s' = es_edges s ++ [p]) -> extends s s').
  { intros s s' p [->|E]; [apply extends_refl|]. now exists [p]. }
  apply X in X0, X1, X2.
  exists s3, (k0, k1, k2). split; [reflexivity|]. split; [exact I3|].
  split; [eapply extends_trans; [exact X0|eapply extends_trans; [exact X1|exact X2]]|]. split.
  - intros i Hlt. destruct i as [|[|[|i]]]; [| | |lia]; cbn [enode fst snd sideOrd localEdgeNodes].
    + eapply extends_nth; [exact X2|]. eapply extends_nth; [exact X1|]. exact N0.
    + eapply extends_nth; [exact X2|]. exact N1.
    + exact N2.
  - intros x. rewrite M2, M1, M0. unfold sideOrd. cbn [localEdgeNodes enode fst snd]. split.
    + intros [[[H| ->]| ->]| ->]; [now left|right; exists 0|right; exists 1|right; exists 2]; (split; [lia|reflexivity]).
    + intros [H|(i & Hlt & ->)]; [now left; left; left|].
      destruct i as [|[|[|i]]]; [| | |lia]; cbn; auto.
Qed.

Lemma addElements_ok nn : forall es st, einv st -> Forall (nodesBelow nn) es ->
  exists st' ts, addElements nn st es = Some (st', ts) /\ einv st' /\ extends st st' /\
    length ts = length es /\
    (forall k e t i, i < 3 -> nth_error es k = Some e -> nth_error ts k = Some t ->
       nth_error (es_edges st') (enode t i) = Some (sideOrd e i)) /\
    (forall x, In x (es_edges st') <-> In x (es_edges st) \/ exists e i, In e es /\ i < 3 /\ x = sideOrd e i).
Proof.
  induction es as [|e es IH]; intros st Hi Hb.
  - exists st, []. cbn. split; [reflexivity|]. split; [exact Hi|]. split; [apply extends_refl|]. split; [reflexivity|].
    split; [intros [|k]; discriminate|]. intros x. split; [now left|]. intros [H|(e & i & [] & _)]. exact H.
  - inversion Hb as [|? ? He Hes]; subst.
    destruct (addElement_ok nn st e Hi He) as (s1 & t & E1 & I1 & X1 & N1 & M1).
    destruct (IH s1 I1 Hes) as (s2 & ts & E2 & I2 & X2 & L2 & N2 & M2).
    exists s2, (t :: ts). cbn [addElements]. rewrite E1, E2. split; [reflexivity|]. split; [exact I2|].
    split; [eapply extends_trans; eauto|]. split; [cbn; now rewrite L2|]. split.
    + intros [|k] e' t' i Hlt Ee Et; cbn in Ee, Et.
      * inversion Ee; inversion Et; subst. eapply extends_nth; [exact X2|]. now apply N1.
      * eapply N2; eauto.
    + intros x. rewrite M2, M1. split.
      * intros [[H|(i & Hlt & ->)]|(e' & i & H & Hlt & ->)]; [now left|right; exists e, i|right; exists e', i]; repeat split; auto; [now left|now right].
      * intros [H|(e' & i & [<-|H] & Hlt & ->)]; [now left; left|left; right; exists i; auto|right; exists e', i; auto].
Qed.

(** ---- statement-level facts ---- *)
Lemma ord_same a b c d : ord a b = ord c d <-> sameEnds (a, b) (c, d).
Proof.
  unfold ord, sameEnds. cbn [fst snd]. destruct (Nat.ltb_spec a b), (Nat.ltb_spec c d); split; intros H1;
  try (inversion H1; subst; auto; fail);
  destruct H1 as [H1|H1]; inversion H1; subst; try lia; try reflexivity; f_equal; lia.
Qed.
Lemma ord_ends a b : sameEnds (ord a b) (a, b) /\ snd (ord a b) <= fst (ord a b).
Proof. unfold ord, sameEnds. destruct (Nat.ltb_spec a b); cbn; split; auto; lia. Qed.
Lemma sideOrd_side e i : i < 3 -> sameEnds (sideOrd e i) (sideNodes e i).
Proof.
  intros Hi. destruct e as [[a b] c]. unfold sideOrd.
  destruct i as [|[|[|i]]]; [| | |lia]; cbn [localEdgeNodes enode sideNodes fst snd].
  - apply ord_ends.
  - unfold sameEnds, ord. cbn [fst snd]. destruct (Nat.ltb_spec c a); auto.
  - apply ord_ends.
Qed.
Lemma sameEnds_sym p q : sameEnds p q -> sameEnds q p.
Proof. unfold sameEnds. intros [->| ->]; [now left|]. right. destruct q. reflexivity. Qed.
Lemma sameEnds_trans p q r : sameEnds p q -> sameEnds q r -> sameEnds p r.
Proof. unfold sameEnds. destruct p, q, r; cbn. intros [H|H] [H'|H']; inversion H; inversion H'; subst; auto. Qed.
Lemma sideOrd_inj e i e' j : i < 3 -> j < 3 ->
  (sideOrd e i = sideOrd e' j <-> sameEnds (sideNodes e i) (sideNodes e' j)).
Proof.
  intros Hi Hj. split.
  - intros H. eapply sameEnds_trans; [apply sameEnds_sym, sideOrd_side, Hi|]. rewrite H. now apply sideOrd_side.
  - intros H. unfold sideOrd. apply ord_same.
    destruct e as [[a b] c], e' as [[a' b'] c'].
    destruct i as [|[|[|i]]]; [| | |lia]; (destruct j as [|[|[|j]]]; [| | |lia]);
    unfold sameEnds in *; cbn [localEdgeNodes enode sideNodes fst snd] in *; destruct H as [H|H]; inversion H; subst; auto.
Qed.

Lemma init_ok base nn es : Forall (nodesBelow nn) es ->
  exists c, init base nn es = Some c /\ c_elements c = es /\ c_nnodes c = nn /\ length (c_e2e c) = length es /\
   NoDup (c_edges c) /\
   (forall k e t i, i < 3 -> nth_error es k = Some e -> nth_error (c_e2e c) k = Some t ->
      nth_error (c_edges c) (enode t i) = Some (sideOrd e i)) /\
   (forall x, In x (c_edges c) <-> exists e i, In e es /\ i < 3 /\ x = sideOrd e i) /\
   c_edge2Elements c = pushAll (pushes3 (c_e2e c)) /\ c_node2Elements c = pushAll (pushes3 es) /\
   c_node2Edges c = pushAll (pushes2 (c_edges c)) /\
   c_nodeIds c ++ c_elementIds c ++ c_edgeIds c = seq base (nn + length es + length (c_edges c)) /\
   length (c_nodeIds c) = nn /\ length (c_elementIds c) = length es /\ length (c_edgeIds c) = length (c_edges c) /\
   c_idCounter c = base + nn + length es + length (c_edges c).
Proof.
  intros Hb. unfold init.
  destruct (addElements_ok nn es (EState [] (fun _ => []))) as (st & ts & E & I & _ & L & N & M).
  { split; cbn; [constructor|]. intros n0 n1 k. split; [intros []|]. destruct k; discriminate. }
  { exact Hb. }
  rewrite E. eexists. split; [reflexivity|]. cbn [c_elements c_nnodes c_e2e c_edges c_edge2Elements c_node2Elements c_node2Edges c_nodeIds c_elementIds c_edgeIds c_idCounter].
  split; [reflexivity|]. split; [reflexivity|]. split; [exact L|]. split; [apply I|].
  split; [exact N|]. split; [|].
  { intros x. rewrite M. cbn. intuition. }
  repeat (split; [try reflexivity|]); try apply seq_length; try reflexivity.
  rewrite !seq_app, <- app_assoc. f_equal. f_equal; f_equal; lia.
Qed.

Lemma in_pushes3 ts n k : In (n, k) (pushes3 ts) <-> exists t i, nth_error ts k = Some t /\ i < 3 /\ enode t i = n.
Proof.
  unfold pushes3. rewrite in_flat_map. split.
  - intros ([i t] & H & Hm). apply in_combine_seq0 in H. apply in_map_iff in Hm. destruct Hm as (j & E & Hj).
    cbn [fst snd] in E. inversion E; subst. exists t, j. split; [exact H|]. split; [|reflexivity]. cbn in Hj. lia.
  - intros (t & i & H & Hi & <-). exists (k, t). split; [now apply in_combine_seq0|].
    apply in_map_iff. exists i. split; [reflexivity|]. cbn. lia.
Qed.
Lemma in_pushes2 es n k : In (n, k) (pushes2 es) <-> exists e, nth_error es k = Some e /\ (fst e = n \/ snd e = n).
Proof.
  unfold pushes2. rewrite in_flat_map. split.
  - intros ([i t] & H & Hm). apply in_combine_seq0 in H. cbn [fst snd In] in Hm.
    destruct Hm as [E|[E|[]]]; inversion E; subst; exists t; auto.
  - intros (t & H & Hi). exists (k, t). split; [now apply in_combine_seq0|]. cbn. destruct Hi as [<-|<-]; auto.
Qed.

(** counts: multiplicity of element k in the list of an entity *)
Lemma count_pushAll l n v : count_occ Nat.eq_dec (pushAll l n) v = length (filter (fun p => (fst p =? n) && (snd p =? v)) l).
Proof.
  rewrite pushAll_spec. induction l as [|[a b] l IH]; [reflexivity|]. cbn [filter fst snd].
  destruct (a =? n) eqn:Ea; cbn [map andb snd filter].
  - cbn [count_occ]. destruct (Nat.eq_dec b v) as [->|Hne].
    + rewrite Nat.eqb_refl. cbn [length]. now rewrite IH.
    + apply Nat.eqb_neq in Hne. rewrite Hne. exact IH.
  - exact IH.
Qed.

(** lists are increasing (elements pushed in order) *)
Fixpoint nondecr (l : list nat) : Prop :=
  match l with [] => True | x :: r => (forall y, In y r -> x <= y) /\ nondecr r end.
Lemma nondecr_app l m : nondecr l -> nondecr m -> (forall x y, In x l -> In y m -> x <= y) -> nondecr (l ++ m).
Proof.
  induction l as [|a l IH]; cbn; intros H1 H2 H3; [exact H2|]. destruct H1 as [Ha Hl]. split.
  - intros y Hy. apply in_app_iff in Hy. destruct Hy as [Hy|Hy]; [now apply Ha|]. apply H3; auto.
  - apply IH; auto.
Qed.
Lemma pushes_nondecr A (g : nat * A -> list (nat * nat)) (l : list A) n :
  (forall p q, In q (g p) -> snd q = fst p) ->
  nondecr (pushAll (flat_map g (combine (seq 0 (length l)) l)) n).
Proof.
  intros Hg. rewrite pushAll_spec. generalize 0.
  induction l as [|a l IH]; intros k; cbn [length seq combine flat_map]; [exact I|].
  rewrite filter_app, map_app. apply nondecr_app; [|apply IH|].
  - assert (G : forall m, (forall q, In q m -> snd q = k) -> nondecr (map snd (filter (fun p => fst p =? n) m))).
    { induction m as [|q m IHm]; intros Hq; cbn [filter]; [exact I|].
      destruct (fst q =? n); [|apply IHm; intros; apply Hq; now right]. cbn [map nondecr]. split.
      - intros y Hy. apply in_map_iff in Hy. destruct Hy as (z & <- & Hz). apply filter_In in Hz.
        rewrite (Hq q), (Hq z); [lia|right; tauto|now left].
      - apply IHm. intros; apply Hq; now right. }
    apply G. intros q Hq. now apply (Hg (k, a)).
  - intros x y Hx Hy. apply in_map_iff in Hx, Hy. destruct Hx as (p & <- & Hp), Hy as (q & <- & Hq).
    apply filter_In in Hp, Hq. destruct Hp as [Hp _], Hq as [Hq _]. apply Hg in Hp. cbn in Hp.
    apply in_flat_map in Hq. destruct Hq as ([j b] & Hj & Hq). apply Hg in Hq. cbn in Hq.
    apply in_combine_seq in Hj. lia.
Qed.

(** ---- barycentric refinement ---- *)
Lemma sons_length V E f v e : length (sons V E f v e) = 6.
Proof. reflexivity. Qed.
Lemma nth_flat_map_const A B (g : A -> list B) m : (forall a, length (g a) = m) -> 0 < m ->
  forall l k, nth_error (flat_map g l) k = match nth_error l (k / m) with Some a => nth_error (g a) (k mod m) | None => None end.
Proof.
  intros Hm Hp. induction l as [|a l IH]; intros k; cbn [flat_map].
  - destruct k as [|k]; destruct (_ / m); reflexivity.
  - destruct (Nat.lt_ge_cases k m) as [Hk|Hk].
    + rewrite nth_error_app1 by (rewrite Hm; exact Hk). rewrite Nat.div_small, Nat.mod_small by exact Hk. reflexivity.
    + rewrite nth_error_app2 by (rewrite Hm; exact Hk). rewrite Hm, IH.
      assert (E : k = (k - m) + 1 * m) by lia.
      assert (Ed : k / m = S ((k - m) / m)) by (rewrite E at 1; rewrite Nat.div_add by lia; lia).
      assert (Em : k mod m = (k - m) mod m) by (rewrite E at 1; now rewrite Nat.mod_add by lia).
      rewrite Ed, Em. reflexivity.
Qed.
Lemma nth_error_combine A B (l : list A) (m : list B) k :
  nth_error (combine l m) k = match nth_error l k, nth_error m k with Some a, Some b => Some (a, b) | _, _ => None end.
Proof.
  revert m k. induction l as [|a l IH]; intros [|b m] [|k]; cbn; try reflexivity.
  - now destruct (nth_error l k).
  - apply IH.
Qed.
Lemma nth_error_seq a n k : nth_error (seq a n) k = if k <? n then Some (a + k) else None.
Proof.
  revert a k. induction n as [|n IH]; intros a [|k]; cbn [seq nth_error]; try reflexivity.
  - cbn. f_equal. lia.
  - rewrite IH. change (S k <? S n) with (k <? n). destruct (k <? n); [f_equal; lia|reflexivity].
Qed.

Lemma bary_nth c f s v e : length (c_e2e c) = length (c_elements c) ->
  nth_error (c_elements c) f = Some v -> nth_error (c_e2e c) f = Some e -> s < 6 ->
  nth_error (barycentricElements c) (6 * f + s) = nth_error (sons (c_nnodes c) (length (c_edges c)) f v e) s.
Proof.
  intros HL Hv He Hs. unfold barycentricElements.
  rewrite (@nth_flat_map_const _ _ _ 6) by (try reflexivity; lia).
  replace (6 * f + s) with (s + f * 6) by lia. rewrite Nat.div_add, Nat.mod_add by lia.
  rewrite (Nat.div_small s 6), (Nat.mod_small s 6) by lia. cbn [Nat.add].
  rewrite !nth_error_combine, Hv, He, nth_error_seq.
  assert (Hf : f < length (c_elements c)) by (apply nth_error_Some; congruence).
  apply Nat.ltb_lt in Hf. rewrite Hf. reflexivity.
Qed.
Lemma bary_length c : length (c_e2e c) = length (c_elements c) ->
  length (barycentricElements c) = 6 * length (c_elements c).
Proof.
  intros HL. unfold barycentricElements.
  assert (G : forall A B (g : A -> list B) l, (forall a, length (g a) = 6) -> length (flat_map g l) = 6 * length l).
  { intros A B g l H. induction l as [|a l IH]; [reflexivity|]. cbn [flat_map]. rewrite app_length, H, IH. cbn [length]. lia. }
  rewrite G by reflexivity. rewrite !combine_length, seq_length, HL. lia.
Qed.

(** son map *)
Lemma sonMap_spec (ins : nat -> nat) : forall (l : list nat) (m : nat -> nat -> option nat) f s,
  (forall i j, In i l -> In j l -> ins i = ins j -> i = j) -> s < 6 ->
  fold_left (fun m j => let i := ins j in fun f s => if (f =? i / 6) && (s =? i mod 6) then Some j else m f s) l m f s
  = match find (fun j => ins j =? 6 * f + s) l with Some j => Some j | None => m f s end.
Proof.
  induction l as [|j l IH]; intros m f s Hinj Hs; cbn [fold_left find]; [reflexivity|].
  rewrite IH; [|intros; apply Hinj; auto with datatypes|exact Hs].
  assert (D : ((f =? ins j / 6) && (s =? ins j mod 6))%bool = (ins j =? 6 * f + s)).
  { apply eq_true_iff_eq. rewrite andb_true_iff, !Nat.eqb_eq. pose proof (Nat.div_mod (ins j) 6). split.
    - intros [E1 E2]. lia.
    - intros E. rewrite E. replace (6 * f + s) with (s + f * 6) by lia. rewrite Nat.div_add, Nat.mod_add by lia.
      rewrite Nat.div_small, Nat.mod_small by lia. lia. }
  cbn zeta. rewrite D. destruct (ins j =? 6 * f + s) eqn:Ej.
  - destruct (find (fun j0 => ins j0 =? 6 * f + s) l) as [j'|] eqn:Ef; [|reflexivity].
    apply find_some in Ef. destruct Ef as [H1 H2]. apply Nat.eqb_eq in H2, Ej. f_equal.
    apply Hinj; [now right|now left|congruence].
  - reflexivity.
Qed.

(** permutation of domain indices *)
Lemma updN_upd l i v : updN l i v = upd l i v.
Proof. revert i. induction l as [|h t IH]; intros [|i]; cbn; try reflexivity. now rewrite IH. Qed.
Lemma permute_ok dom : forall order out, (forall i j, In (i, j) order -> i < length out /\ j < length dom) ->
  NoDup (map fst order) ->
  exists r, permuteLoop dom order out = Some r /\ length r = length out /\
    (forall i j, In (i, j) order -> nth_error r i = nth_error dom j) /\
    (forall i, ~ In i (map fst order) -> nth_error r i = nth_error out i).
Proof.
  induction order as [|[i j] order IH]; intros out Hb Hnd; cbn [permuteLoop].
  - exists out. repeat split; auto. intros i j [].
  - destruct (Hb i j (or_introl eq_refl)) as [Hi Hj].
    destruct (nth_error dom j) as [d|] eqn:Ed; [|apply nth_error_None in Ed; lia].
    rewrite updN_upd. destruct (upd_Some out d Hi) as (o & Eo). rewrite Eo.
    pose proof (upd_length _ _ _ Eo) as Lo. cbn [map fst] in Hnd. inversion Hnd as [|? ? Hn Hnd']; subst.
    destruct (IH o) as (r & Er & Lr & H1 & H2); [|exact Hnd'|].
    { intros a b H. rewrite Lo. apply Hb. now right. }
    exists r. split; [exact Er|]. split; [congruence|]. split.
    + intros a b [H|H]; [|now apply H1]. inversion H; subst. rewrite H2 by exact Hn.
      rewrite (upd_nth_error _ _ _ a Eo), Nat.eqb_refl. now symmetry.
    + intros a Ha. cbn in Ha. rewrite H2 by tauto. rewrite (upd_nth_error _ _ _ a Eo).
      destruct (Nat.eqb_spec a i); [subst; tauto|reflexivity].
Qed.

(** ---- structured grids ---- *)
Lemma miNext_spec n m k : 0 < n -> S k < n * m -> miNext n m (k mod n, k / n) = (S k mod n, S k / n).
Proof.
  intros Hn Hk. unfold miNext. pose proof (Nat.div_mod k n ltac:(lia)) as E. pose proof (Nat.mod_upper_bound k n ltac:(lia)) as U.
  set (a := k mod n) in *. set (b := k / n) in *. clearbody a b. subst k.
  destruct (Nat.ltb_spec (a + 1) n) as [H|H].
  - replace (S (n * b + a)) with (a + 1 + b * n) by lia. rewrite Nat.div_add, Nat.mod_add by lia.
    rewrite Nat.div_small, Nat.mod_small by lia. reflexivity.
  - replace (S (n * b + a)) with (0 + (b + 1) * n) by lia. rewrite Nat.div_add, Nat.mod_add by lia.
    rewrite Nat.div_small, Nat.mod_small by lia.
    destruct (Nat.ltb_spec (b + 1) m) as [H'|H']; [reflexivity|]. nia.
Qed.
Lemma miLoop_spec n m : 0 < n -> forall c k, k + c <= n * m ->
  miLoop n m c (k mod n, k / n) = map (fun i => (i mod n, i / n)) (seq k c).
Proof.
  intros Hn. induction c as [|c IH]; intros k Hk; [reflexivity|]. cbn [miLoop seq map]. f_equal.
  destruct c as [|c]; [reflexivity|]. rewrite miNext_spec by lia. apply IH. lia.
Qed.
Lemma miAll_spec n m : 0 < n -> miAll n m = map (fun i => (i mod n, i / n)) (seq 0 (n * m)).
Proof.
  intros Hn. unfold miAll. rewrite <- (miLoop_spec n m Hn (n * m) 0) by lia.
  rewrite Nat.mod_0_l, Nat.div_0_l by lia. reflexivity.
Qed.
Lemma miAll_nth n m k : 0 < n -> k < n * m -> nth_error (miAll n m) k = Some (k mod n, k / n).
Proof.
  intros Hn Hk. rewrite miAll_spec by exact Hn. rewrite nth_error_map, nth_error_seq.
  apply Nat.ltb_lt in Hk. rewrite Hk. reflexivity.
Qed.
Lemma miAll_length n m : length (miAll n m) = n * m.
Proof.
  unfold miAll. generalize (0, 0). generalize (n * m). intros c. induction c as [|c IH]; intros p; cbn; [reflexivity|]. now rewrite IH.
Qed.

(** node number of lattice point (x, y) *)
Definition pt (nx x y : nat) : nat := x + y * (nx + 1).
Lemma pt_inj nx x y x' y' : x <= nx -> x' <= nx -> pt nx x y = pt nx x' y' -> x = x' /\ y = y'.
Proof. unfold pt. intros. assert (y = y') by nia. subst. lia. Qed.

Lemma triangles_nth nx ny t : 0 < nx -> t < 2 * (nx * ny) ->
  let x := (t / 2) mod nx in let y := (t / 2) / nx in
  nth_error (simplexElements nx ny) t =
    Some (if t mod 2 =? 0 then (pt nx x y, pt nx (x + 1) y, pt nx (x + 1) (y + 1))
          else (pt nx x y, pt nx (x + 1) (y + 1), pt nx x (y + 1))).
Proof.
  intros Hn Ht x y. unfold simplexElements.
  rewrite (@nth_flat_map_const _ _ _ 2) by (try reflexivity; lia).
  rewrite miAll_nth by (try exact Hn; apply Nat.div_lt_upper_bound; lia).
  fold x y. pose proof (Nat.mod_upper_bound t 2 ltac:(lia)).
  unfold cellTriangles, unitOffsets, pt. cbn [fst snd].
  destruct (t mod 2) as [|[|q]]; cbn [nth_error Nat.eqb]; [| |lia]; f_equal; f_equal; [f_equal| |f_equal|]; lia.
Qed.
Lemma simplex_length nx ny : length (simplexElements nx ny) = 2 * (nx * ny).
Proof.
  unfold simplexElements.
  assert (G : forall A B (g : A -> list B) l, (forall a, length (g a) = 2) -> length (flat_map g l) = 2 * length l).
  { intros A B g l H. induction l as [|a l IH]; [reflexivity|]. cbn [flat_map]. rewrite app_length, H, IH. cbn [length]. lia. }
  rewrite G by reflexivity. now rewrite miAll_length.
Qed.
