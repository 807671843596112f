(** Continuous spaces: numbering of entities and the assignments of one element. *)
From Coq Require Import Permutation Sorted.
From Verif Require Import Base SegModel SegSpec SegProofs AsmModel AsmSpec SpaceModel SpaceSpec SpaceProofs RangeProofs PolyModel PolySpec PolyProofs1 PolyProofs2.
Set Implicit Arguments.
Local Open Scope Z_scope.

Lemma numberOnes_start : forall l c, (forall x, In x l -> x = 1 \/ x <= 0) -> numberOnes l c = startDofs l c.
Proof.
  induction l as [|x l IH]; intros c H; [reflexivity|]. cbn [numberOnes startDofs].
  destruct (H x (or_introl eq_refl)) as [->|L].
  - cbn. rewrite IH by (intros; apply H; now right). reflexivity.
  - destruct (Z.eqb_spec x 1); [lia|]. destruct (Z.ltb_spec 0 x); [lia|]. rewrite IH by (intros; apply H; now right). reflexivity.
Qed.

(** entry i of the result of startDofs *)
Lemma startDofs_spec : forall l c l' c', startDofs l c = (l', c') ->
  length l' = length l /\ c <= c' /\
  (forall i n, nth_error l i = Some n -> exists d, nth_error l' i = Some d /\ (n <= 0 -> d = n) /\ (0 < n -> c <= d /\ d + n <= c')) /\
  (forall i j n d n' d', (i < j)%nat -> nth_error l i = Some n -> nth_error l j = Some n' -> 0 < n -> 0 < n' ->
     nth_error l' i = Some d -> nth_error l' j = Some d' -> d + n <= d') /\
  (forall x, c <= x < c' -> exists i n d, nth_error l i = Some n /\ 0 < n /\ nth_error l' i = Some d /\ d <= x < d + n).
Proof.
  induction l as [|n l IH]; intros c l' c' H.
  - cbn in H. injection H as <- <-. split; [reflexivity|]. split; [lia|]. split; [intros [|i]; discriminate|]. split; [intros [|i] j n d n' d' _ Q; discriminate Q|intros; lia].
  - cbn [startDofs] in H.
    assert (exists y c1 r', l' = y :: r' /\ startDofs l c1 = (r', c') /\ ((0 < n /\ y = c /\ c1 = c + n) \/ (n <= 0 /\ y = n /\ c1 = c))) as (y & c1 & r' & -> & E & Q).
    { destruct (Z.ltb_spec 0 n).
      - destruct (startDofs l (c + n)) as (r', c2) eqn:E. injection H as <- <-. exists c, (c + n), r'. repeat split; auto.
      - destruct (startDofs l c) as (r', c2) eqn:E. injection H as <- <-. exists n, c, r'. repeat split; auto. }
    clear H. destruct (IH _ _ _ E) as (A1 & A2 & A3 & A4 & A5).
    assert (C1 : c <= c1) by lia. split; [cbn; lia|]. split; [lia|]. split; [|split].
    + intros [|i] k Hk; cbn in Hk |- *.
      * injection Hk as ->. exists y. split; [reflexivity|]. lia.
      * destruct (A3 i k Hk) as (d & B1 & B2 & B3). exists d. split; [exact B1|]. split; [exact B2|]. intros P. apply B3 in P. lia.
    + intros i j m d m' d' L Hi Hj P P' Di Dj. destruct j as [|j]; [lia|]. cbn in Hj, Dj. destruct i as [|i]; cbn in Hi, Di.
      * injection Hi as ->. injection Di as ->. destruct (A3 j m' Hj) as (d2 & B1 & B2 & B3). assert (d2 = d') by congruence. subst d2. apply B3 in P'. lia.
      * apply (A4 i j m d m' d'); auto; lia.
    + intros x X. destruct (Z_lt_le_dec x c1) as [Lx|Lx].
      * exists 0%nat, n, y. cbn. repeat split; auto; lia.
      * destruct (A5 x) as (i & m & d & B1 & B2 & B3 & B4); [lia|]. exists (S i), m, d. auto.
Qed.

Lemma edgeLoop_spec index step : step = 1 \/ step = -1 -> forall m fuel l gdof, (m < fuel)%nat ->
  edgeLoop fuel index l gdof (gdof + step * Z.of_nat m) step =
  Some (map (fun j => (index (l + Z.of_nat j), Some (gdof + step * Z.of_nat j))) (seq 0 m)).
Proof.
  intros S. induction m as [|m IH]; intros fuel l gdof F; destruct fuel as [|fuel]; try lia.
  - cbn [edgeLoop]. replace (gdof + step * Z.of_nat 0) with gdof by lia. now rewrite Z.eqb_refl.
  - cbn [edgeLoop]. destruct (Z.eqb_spec gdof (gdof + step * Z.of_nat (Datatypes.S m))) as [Q|_]; [exfalso; lia|].
    replace (gdof + step * Z.of_nat (Datatypes.S m)) with ((gdof + step) + step * Z.of_nat m) by lia.
    rewrite IH by lia. cbn [obind]. f_equal. cbn [seq map]. f_equal; [f_equal; [f_equal; lia|f_equal; lia]|].
    rewrite <- seq_shift, map_map. apply map_ext. intros j. f_equal; [f_equal; lia|f_equal; lia].
Qed.

Fixpoint posIn (n : nat * nat) (l : list (nat * nat)) : nat :=
  match l with [] => O | a :: r => if (fst a =? fst n)%nat && (snd a =? snd n)%nat then O else S (posIn n r) end.
Lemma pair_eqb (a b : nat * nat) : (fst a =? fst b)%nat && (snd a =? snd b)%nat = true <-> a = b.
Proof. destruct a, b. cbn. rewrite andb_true_iff, !Nat.eqb_eq. split; [intros (-> & ->); reflexivity|intros E; now injection E]. Qed.
Lemma posIn_nth l : forall n, In n l -> nth_error l (posIn n l) = Some n.
Proof.
  induction l as [|a l IH]; intros n I; [destruct I|]. cbn [posIn]. destruct (_ && _) eqn:E.
  - apply pair_eqb in E. now subst.
  - destruct I as [->|I]; [|now apply IH]. rewrite (proj2 (pair_eqb n n) eq_refl) in E. discriminate.
Qed.
Lemma combine_pos_gen (L : list (nat * nat)) : NoDup L -> forall pre, (forall n, In n L -> ~ In n pre) ->
  combine L (seq (length pre) (length L)) = map (fun n => (n, posIn n (pre ++ L))) L.
Proof.
  induction L as [|a L IH]; intros ND pre D; [reflexivity|]. inversion ND as [|? ? NI ND']; subst. cbn [length seq combine map]. f_equal.
  - f_equal. clear -D. assert (NA : ~ In a pre) by (apply D; now left). clear D. induction pre as [|b pre IH]; cbn.
    + now rewrite !Nat.eqb_refl.
    + destruct (_ && _) eqn:E; [apply pair_eqb in E; subst; exfalso; apply NA; now left|]. f_equal. apply IH. intro; apply NA; now right.
  - specialize (IH ND' (pre ++ [a])). rewrite app_length in IH. cbn [length] in IH. rewrite Nat.add_1_r in IH. rewrite IH.
    + apply map_ext. intros n. now rewrite <- app_assoc.
    + intros n I J. apply in_app_iff in J as [J|[->|[]]]; [apply (D n); [now right|exact J]|contradiction].
Qed.
Lemma combine_pos (L : list (nat * nat)) : NoDup L -> combine L (seq 0 (length L)) = map (fun n => (n, posIn n L)) L.
Proof. intros ND. apply (combine_pos_gen ND []). intros n _ []. Qed.

Definition zgetd (l : list Z) (i : Z) : Z := match zget l i with Some d => d | None => -1 end.
Lemma zgetd_in l i : 0 <= i < Z.of_nat (length l) -> zget l i = Some (zgetd l i).
Proof. intros H. unfold zgetd. destruct (zget_Some l i H) as (a & ->). reflexivity. Qed.

Section Puts.
Variables (p : nat) (cont : selt -> bool) (vd ed bd : list Z).
Definition vert (e : selt) (k : nat) : Z := nth k (s_verts e) (-1).
Definition facet (e : selt) (k : nat) : Z := fst (nth k (s_facets e) (-1, [])).
Definition offset (e : selt) (k l : nat) : Z :=
  if vert e (fst (edgeEnds k)) <? vert e (snd (edgeEnds k)) then Z.of_nat l - 1 else Z.of_nat p - 1 - Z.of_nat l.
Definition tabP (e : selt) (n : nat * nat) : option Z :=
  match classify p n with
  | Corner k => if cont e then (let d := zgetd vd (vert e k) in if 0 <=? d then Some d else None) else None
  | Side k l => let d := zgetd ed (facet e k) in if (0 <=? d) && cont e then Some (d + offset e k l) else None
  | Inner => let d := zgetd bd (s_index e) in if 0 <=? d then Some (d + Z.of_nat (posIn n (innerNodes p))) else None
  end.
Hypothesis pos : (1 <= p)%nat.

Definition shaped (e : selt) : Prop := exists a b c i j k, s_verts e = [a; b; c] /\ s_facets e = [(i, [a; b]); (j, [a; c]); (k, [b; c])].
Lemma vertexOf_shaped e k : shaped e -> (k < 3)%nat -> vertexOf e k = Some (vert e k).
Proof. intros (a & b & c & i & j & q & V & F) L. unfold vertexOf, vert. rewrite V. destruct k as [|[|[|k]]]; reflexivity || lia. Qed.
Lemma facetOf_shaped e k : shaped e -> (k < 3)%nat -> facetOf e k = Some (facet e k).
Proof. intros (a & b & c & i & j & q & V & F) L. unfold facetOf, facet. rewrite F. destruct k as [|[|[|k]]]; reflexivity || lia. Qed.

Lemma cornerPut_eq e k : shaped e -> (k < 3)%nat -> 0 <= vert e k < Z.of_nat (length vd) ->
  cornerPut (Z.of_nat p) vd (cont e) e k = Some (slot p (cornerNode p k), tabP e (cornerNode p k)).
Proof.
  intros Sh L R. unfold cornerPut. rewrite vertexOf_shaped by auto. cbn [obind]. rewrite cornerIndex_slot by auto.
  unfold tabP. rewrite classify_corner by auto. destruct (cont e); [|reflexivity]. rewrite zgetd_in by exact R. reflexivity.
Qed.
Lemma ends_lt k : (k < 3)%nat -> (fst (edgeEnds k) < 3)%nat /\ (snd (edgeEnds k) < 3)%nat.
Proof. intros L. destruct k as [|[|[|k]]]; cbn; lia. Qed.
Lemma edgePuts_eq e k : shaped e -> (k < 3)%nat -> 0 <= facet e k < Z.of_nat (length ed) ->
  edgePuts (Z.of_nat p) ed (cont e) e k = Some (map (fun n => (slot p n, tabP e n)) (map (sideNode p k) (seq 1 (p - 1)))).
Proof.
  intros Sh L R. unfold edgePuts. rewrite facetOf_shaped by auto. cbn [obind]. destruct (ends_lt L) as (L1 & L2).
  rewrite !vertexOf_shaped by auto. cbn [obind]. rewrite zgetd_in by exact R. cbn [obind].
  assert (G : forall (f : nat -> putp), (forall l, (1 <= l <= p - 1)%nat -> f l = (slot p (sideNode p k l), tabP e (sideNode p k l))) ->
     map f (seq 1 (p - 1)) = map (fun n => (slot p n, tabP e n)) (map (sideNode p k) (seq 1 (p - 1)))).
  { intros f H. rewrite map_map. apply map_ext_in. intros l I. apply in_seq in I. apply H. lia. }
  assert (T : forall l, (1 <= l <= p - 1)%nat -> tabP e (sideNode p k l) = if (0 <=? zgetd ed (facet e k)) && cont e then Some (zgetd ed (facet e k) + offset e k l) else None).
  { intros l B. unfold tabP. now rewrite classify_side by auto. }
  destruct ((0 <=? zgetd ed (facet e k)) && cont e) eqn:C.
  - unfold offset in T. replace (Z.to_nat (Z.of_nat p)) with p by lia. destruct (_ <? _) eqn:AB.
    + replace (zgetd ed (facet e k) + (Z.of_nat p - 1)) with (zgetd ed (facet e k) + 1 * Z.of_nat (p - 1)) by lia.
      rewrite edgeLoop_spec by (auto; lia). f_equal. rewrite <- (G (fun l => (edgeIndex (Z.of_nat p) k (Z.of_nat l), Some (zgetd ed (facet e k) + (Z.of_nat l - 1))))).
      * rewrite <- (seq_shift (p - 1) 0), map_map. apply map_ext. intros j. f_equal; [f_equal; lia|f_equal; lia].
      * intros l B. rewrite edgeIndex_slot by auto. now rewrite T by auto.
    + replace (zgetd ed (facet e k) - 1) with ((zgetd ed (facet e k) - 1 + (Z.of_nat p - 1)) + -1 * Z.of_nat (p - 1)) at 2 by lia.
      rewrite edgeLoop_spec by (auto; lia). f_equal. rewrite <- (G (fun l => (edgeIndex (Z.of_nat p) k (Z.of_nat l), Some (zgetd ed (facet e k) + (Z.of_nat p - 1 - Z.of_nat l))))).
      * rewrite <- (seq_shift (p - 1) 0), map_map. apply map_ext. intros j. f_equal; [f_equal; lia|f_equal; lia].
      * intros l B. rewrite edgeIndex_slot by auto. now rewrite T by auto.
  - f_equal. replace (Z.to_nat (Z.of_nat p - 1)) with (p - 1)%nat by lia. change 1 with (Z.of_nat 1). rewrite (zseq_nat (p:=p)), map_map by exact pos. apply G.
    intros l B. rewrite edgeIndex_slot by auto. now rewrite T by auto.
Qed.
Lemma bubblePuts_eq e : 0 <= s_index e < Z.of_nat (length bd) ->
  bubblePuts (Z.of_nat p) bd e = Some (map (fun n => (slot p n, tabP e n)) (innerNodes p)).
Proof.
  intros R. unfold bubblePuts. rewrite zgetd_in by exact R. cbn [obind]. f_equal. rewrite bubbleIndices_slot by exact pos. rewrite map_length.
  assert (E : combine (map (slot p) (innerNodes p)) (seq 0 (length (innerNodes p))) = map (fun n => (slot p n, posIn n (innerNodes p))) (innerNodes p)).
  { pose proof (combine_pos (inner_NoDup p)) as H. apply (f_equal (map (fun q => (slot p (fst q), snd q)))) in H. rewrite map_map in H. cbn [fst snd] in H. rewrite <- H.
    generalize (seq 0 (length (innerNodes p))) as q. generalize (innerNodes p) as L. induction L as [|a L IH]; intros q; [reflexivity|]. destruct q as [|b q]; [reflexivity|]. cbn. f_equal. apply IH. }
  rewrite E, map_map. apply map_ext_in. intros n I. cbn [fst snd]. f_equal. unfold tabP. now rewrite (classify_inner pos) by exact I.
Qed.

Lemma elementPuts_eq s strict e : shaped e -> (strict = true -> contains s 0 (s_index e) = Some (cont e)) -> (strict = false -> cont e = true) ->
  (forall k, (k < 3)%nat -> 0 <= vert e k < Z.of_nat (length vd)) -> (forall k, (k < 3)%nat -> 0 <= facet e k < Z.of_nat (length ed)) ->
  0 <= s_index e < Z.of_nat (length bd) ->
  elementPuts s strict (Z.of_nat p) vd ed bd e = Some (map (fun n => (slot p n, tabP e n)) (nodeOrder p)).
Proof.
  intros Sh C1 C2 RV RE RB. unfold elementPuts.
  assert (C : (if strict then contains s 0 (s_index e) else Some true) = Some (cont e)) by (destruct strict; [now apply C1|now rewrite C2]).
  rewrite C. cbn [obind]. rewrite !cornerPut_eq by (auto; apply RV; lia). cbn [obind].
  assert (E : (if 2 <=? Z.of_nat p then
           e0 <- edgePuts (Z.of_nat p) ed (cont e) e 0 ;; e1 <- edgePuts (Z.of_nat p) ed (cont e) e 1 ;; e2 <- edgePuts (Z.of_nat p) ed (cont e) e 2 ;;
           Some (e0 ++ e1 ++ e2) else Some []) = Some (map (fun n => (slot p n, tabP e n)) (map (sideNode p 0) (seq 1 (p - 1)) ++ map (sideNode p 1) (seq 1 (p - 1)) ++ map (sideNode p 2) (seq 1 (p - 1))))).
  { destruct (Z.leb_spec 2 (Z.of_nat p)).
    - rewrite !edgePuts_eq by (auto; apply RE; lia). cbn [obind]. now rewrite !map_app.
    - replace (p - 1)%nat with 0%nat by lia. reflexivity. }
  rewrite E. cbn [obind].
  assert (B : (if 3 <=? Z.of_nat p then bubblePuts (Z.of_nat p) bd e else Some []) = Some (map (fun n => (slot p n, tabP e n)) (innerNodes p))).
  { destruct (Z.leb_spec 3 (Z.of_nat p)); [now apply bubblePuts_eq|]. destruct (innerNodes p) as [|n r] eqn:Q; [reflexivity|].
    assert (I : In n (innerNodes p)) by (rewrite Q; now left). apply in_inner in I; lia. }
  rewrite B. cbn [obind]. f_equal. unfold nodeOrder. rewrite (map_app _ [_;_;_]), (map_app _ (_ ++ _ ++ _)). reflexivity.
Qed.
End Puts.
