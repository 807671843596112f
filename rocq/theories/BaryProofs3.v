(** The scalar spaces on the refinement. *)
From Coq Require Import Reals Lra Sorted.
From Verif Require Import Base ComplexR SegModel SegSpec SegProofs AsmModel AsmSpec SpaceModel SpaceSpec SpaceProofs SpaceP1Proofs
  PolyModel PolySpec PolyProofs1 PolyProofs2 PolyProofs3 PolyProofs4 PolyProofs5 PolyProofs6 PolyProofs7 SpaceRwgProofs VecModel VecSpec VecProofs VecProofs3 LagModel BaryModel BarySpec BaryProofs BaryProofs2.
Set Implicit Arguments.
Unset Strict Implicit.
Local Open Scope Z_scope.

Lemma sortedZ_unique : forall l l' : list Z, StronglySorted Z.lt l -> StronglySorted Z.lt l' -> (forall x, In x l <-> In x l') -> l = l'.
Proof.
  induction l as [|a l IH]; intros l' S S' E.
  - destruct l' as [|b l']; [reflexivity|]. destruct (proj2 (E b)). now left.
  - destruct l' as [|b l']; [destruct (proj1 (E a)); now left|].
    inversion S as [|? ? SS F]; subst. inversion S' as [|? ? SS' F']; subst. rewrite Forall_forall in F, F'.
    assert (a = b).
    { destruct (proj1 (E a)) as [|I]; [now left|congruence|]. destruct (proj2 (E b)) as [|I']; [now left|congruence|].
      specialize (F _ I'). specialize (F' _ I). lia. }
    subst b. f_equal. apply IH; auto. intro x. specialize (E x). cbn [In] in E. split; intro I.
    + destruct (proj1 E (or_intror I)) as [<-|]; [|assumption]. specialize (F _ I). lia.
    + destruct (proj2 E (or_intror I)) as [<-|]; [|assumption]. specialize (F' _ I). lia.
Qed.
Lemma zrange_SS n : StronglySorted Z.lt (zrange n).
Proof. apply Sorted_StronglySorted; [intros x y z; lia|apply zrange_sorted]. Qed.
Lemma zrange_length n : length (zrange n) = Z.to_nat n.
Proof. unfold zrange. now rewrite map_length, seq_length. Qed.
Lemma whole_holds g c i : (c < 3)%nat -> holds (wholeGrid g) c i <-> 0 <= i < gridCounts g c.
Proof. intro H. rewrite holds_iff by lia. cbn. tauto. Qed.
Lemma whole_fits' g : fits g (wholeGrid g).
Proof. intros c H. split; [reflexivity|]. intros x []. Qed.

Section Scalar.
Variables (g : sgrid) (son : Z -> nat -> Z).
Hypotheses (G : gridOk g) (TR : triangular g) (SN : sonNumbering (g_n0 g) son).

Lemma three e : In e (g_elts g) -> exists a b c, s_verts e = [a; b; c].
Proof. intro I. specialize (TR I). destruct (s_verts e) as [|a [|b [|c [|]]]]; try discriminate. eauto. Qed.
Lemma vertex_range e v : In e (g_elts g) -> In v (s_verts e) -> 0 <= v < g_n2 g.
Proof. intros I J. destruct G as (_ & _ & _ & RV & _). now apply (RV e). Qed.
Lemma vertices_of e a b c : s_verts e = [a; b; c] -> vertices3 e = Some [a; b; c].
Proof. intro E. unfold vertices3. rewrite E. reflexivity. Qed.

Lemma turn_in A i (l : list A) x : In x (turn i l) -> In x l.
Proof. destruct l as [|a [|b [|c [|d l]]]]; cbn; auto. destruct i as [|[|[|[|i]]]]; cbn; tauto. Qed.
Lemma turn_length A i (l : list A) : length (turn i l) = length l.
Proof. destruct l as [|a [|b [|c [|d l]]]]; cbn; auto. destruct i as [|[|[|[|i]]]]; reflexivity. Qed.
Lemma basis_ok i : (i < 6)%nat -> NoDup (element2Basis i) /\ forall l, In l (element2Basis i) <-> (l < 3)%nat.
Proof. intro H. split; [sons i; cbn; repeat constructor; cbn; lia|]. intro l. sons i; cbn; lia. Qed.
Lemma linear_rowOk count i dofs j : (i < 6)%nat -> length dofs = 3%nat -> (forall d, In d dofs -> 0 <= d < Z.of_nat count) ->
  rowOk count (Row j (turn i dofs) (repeat 1%R 3) (element2Basis i) (Nat.even i)).
Proof.
  intros Hi L H. destruct (basis_ok Hi) as (N & M). split; [|split; [|split]]; cbn [r_dofs r_w r_push].
  - intros d I. right. apply H. now apply turn_in in I.
  - now rewrite turn_length.
  - exact N.
  - intro l. rewrite turn_length, L. apply M.
Qed.

(** P1 *)
Lemma p1_whole : exists m : dofmap Rsr, p1Assign g (wholeGrid g) false = Some m /\ consistent m /\ globalDofCount m = Z.to_nat (g_n2 g) /\
  forall e, In e (g_elts g) -> zget (dm_l2g m) (s_index e) = Some (s_verts e) /\ zget (dm_w m) (s_index e) = Some (repeat 1%R 3).
Proof.
  destruct (@p1_core Rsr g (wholeGrid g) false G (whole_fits' g)) as (m & vs & E & C & _ & SS & LV & IV & P).
  assert (V : vs = zrange (g_n2 g)).
  { apply sortedZ_unique; [exact SS|apply zrange_SS|]. intro v. rewrite IV, in_zrange. unfold usedVertex. rewrite whole_holds by lia. cbn [gridCounts]. split; [tauto|intro H; split; [exact H|discriminate]]. }
  exists m. split; [exact E|]. split; [exact C|]. split; [rewrite <- LV, V; apply zrange_length|].
  intros e I. destruct (P e I) as (ds & D1 & D2 & D3 & D4). split.
  - rewrite D1. f_equal. apply nth_error_ext. intro k. destruct (nth_error (s_verts e) k) as [v|] eqn:Ev.
    + destruct (D4 k v Ev) as (d & Ed & [(-> & N)|(_ & _ & P0 & N)]).
      * exfalso. apply N. split; [|discriminate]. rewrite whole_holds by lia. apply (@vertex_range e); [exact I|eapply nth_error_In; eauto].
      * rewrite Ed. f_equal. rewrite V in N. pose proof (@zget_zrange (g_n2 g) d) as Z. unfold zget in Z. destruct (Z.ltb_spec d 0); [lia|].
        assert (Z.to_nat d < length (zrange (g_n2 g)))%nat as LT by (apply nth_error_Some; congruence). rewrite zrange_length in LT.
        rewrite Z in N by lia. congruence.
    + apply nth_error_None in Ev. apply nth_error_None. lia.
  - rewrite D3. rewrite (TR I). reflexivity.
Qed.
Lemma linear_core : exists m b, p1Assign g (wholeGrid g) false = Some m /\ baryLinearSpace son g = Some b /\
  globalDofCount (b_map b) = globalDofCount m /\ consistent (b_map b) /\ flatEnumerates (b_map b) /\
  forall u e i q, length u = globalDofCount m -> In e (g_elts g) -> (i < 6)%nat ->
    exists x, evaluateP1 m u e (sonPoint i q) = Some x /\ evalBaryLinear b u (son (s_index e) i) q = Some x.
Proof.
  destruct p1_whole as (m & E & C & CNT & P).
  set (mk := fun p : selt * nat => Row (son (s_index (fst p)) (snd p)) (turn (snd p) (s_verts (fst p))) (repeat 1%R 3) (element2Basis (snd p)) (Nat.even (snd p))).
  destruct (@build g son (Z.to_nat (g_n2 g)) G SN _ (sonPairs g) (fun p => p) mk (map_id _)) with (f := linearRow son g) as (b & EB & CB & CC & FE & RB).
  - intros (e, i) I. apply in_sonPairs in I as (I & Hi). split; [|reflexivity]. apply linear_rowOk; [exact Hi|now apply TR|].
    intros d J. pose proof (vertex_range I J). cbn [fst snd] in *. lia.
  - intros (e, i) I. apply in_sonPairs in I as (I & Hi). destruct (three I) as (a & v & c & V). unfold linearRow. rewrite (vertices_of V). cbn [obind map].
    rewrite !zget_zrange by (apply (@vertex_range e); [exact I|rewrite V; cbn; tauto]). cbn [oseq obind]. rewrite (@scatter_turn i) by exact Hi. cbn [obind].
    unfold mk. cbn [fst snd]. now rewrite V.
  - exists m, b. split; [exact E|]. split; [exact EB|]. split; [congruence|]. split; [exact CC|]. split; [exact FE|].
    intros u e i q L I Hi. destruct (RB (e, i)) as (R1 & R2 & R3); [now apply in_sonPairs|]. cbn [fst snd mk r_dofs r_w r_type] in *.
    destruct (P e I) as (P1 & P2). destruct (three I) as (a & v & c & V). rewrite V in *.
    eapply scalar_transfer; eauto. congruence.
Qed.

(** constants and dual cells *)
Lemma constant_core count (dof : selt * nat -> option Z) (row_ : selt * nat -> option row) :
  (forall e i, In e (g_elts g) -> (i < 6)%nat -> exists d, dof (e, i) = Some d /\ 0 <= d < Z.of_nat count /\
     row_ (e, i) = Some (Row (son (s_index e) i) [d] [1%R] [0%nat] true)) ->
  exists b, assignSons (6 * length (g_elts g)) count (map row_ (sonPairs g)) = Some b /\
    globalDofCount (b_map b) = count /\ consistent (b_map b) /\ flatEnumerates (b_map b) /\
    (forall e i, In e (g_elts g) -> (i < 6)%nat -> exists d, dof (e, i) = Some d /\ globalDof (b_map b) (son (s_index e) i) 0 d) /\
    forall u e i, length u = count -> In e (g_elts g) -> (i < 6)%nat ->
      exists d x, dof (e, i) = Some d /\ nth_error u (Z.to_nat d) = Some x /\ evalConstant b u (son (s_index e) i) = Some x.
Proof.
  intros H.
  set (mk := fun p : selt * nat => Row (son (s_index (fst p)) (snd p)) [match dof p with Some d => d | None => 0 end] [1%R] [0%nat] true).
  destruct (@build g son count G SN _ (sonPairs g) (fun p => p) mk (map_id _)) with (f := row_) as (b & EB & CB & CC & FE & RB).
  - intros (e, i) I. apply in_sonPairs in I as (I & Hi). destruct (H e i I Hi) as (d & D & R & _). split; [|reflexivity].
    unfold mk. rewrite D. split; [|split; [|split]]; cbn [r_dofs r_w r_push].
    + intros x [<-|[]]. now right.
    + reflexivity.
    + repeat constructor. intros [].
    + intro l. cbn. lia.
  - intros (e, i) I. apply in_sonPairs in I as (I & Hi). destruct (H e i I Hi) as (d & D & _ & R). rewrite R. unfold mk. now rewrite D.
  - exists b. split; [exact EB|]. split; [exact CB|]. split; [exact CC|]. split; [exact FE|].
    assert (Q : forall e i, In e (g_elts g) -> (i < 6)%nat -> exists d, dof (e, i) = Some d /\ 0 <= d < Z.of_nat count /\ globalDof (b_map b) (son (s_index e) i) 0 d /\ dofWeight (b_map b) (son (s_index e) i) 0 1%R).
    { intros e i I Hi. destruct (H e i I Hi) as (d & D & R & _). exists d. split; [exact D|]. split; [exact R|].
      destruct (RB (e, i)) as (R1 & R2 & _); [now apply in_sonPairs|]. cbn [fst snd mk r_dofs r_w] in *. rewrite D in R1.
      split; [exists [d]|exists [1%R]]; auto. }
    split.
    + intros e i I Hi. destruct (Q e i I Hi) as (d & D & _ & X & _). eauto.
    + intros u e i L I Hi. destruct (Q e i I Hi) as (d & D & R & X & W). exists d.
      destruct (nth_error u (Z.to_nat d)) as [x|] eqn:U; [|apply nth_error_None in U; lia]. exists x. split; [exact D|]. split; [reflexivity|].
      unfold evalConstant. destruct (@local_coefficients (b_map b) u (son (s_index e) i) CC) as (cs & E & P); [congruence|eauto|].
      rewrite E. cbn [obind]. unfold sumScalar. cbn [seq fold_left obind]. rewrite (P 0%nat d 1%R X W). cbn [obind]. f_equal.
      unfold coefficient. destruct (Z.leb_spec 0 d); [|lia]. rewrite (nth_error_nth u (Z.to_nat d) 0%R U). ring.
Qed.
Lemma dual_core : exists b, dualSpace son g = Some b /\
    globalDofCount (b_map b) = Z.to_nat (g_n2 g) /\ consistent (b_map b) /\ flatEnumerates (b_map b) /\
    (forall e i, In e (g_elts g) -> (i < 6)%nat -> exists d, nth_error (s_verts e) (i / 2) = Some d /\ globalDof (b_map b) (son (s_index e) i) 0 d) /\
    forall u e i, length u = Z.to_nat (g_n2 g) -> In e (g_elts g) -> (i < 6)%nat ->
      exists v x, nth_error (s_verts e) (i / 2) = Some v /\ nth_error u (Z.to_nat v) = Some x /\ evalConstant b u (son (s_index e) i) = Some x.
Proof.
  apply (@constant_core (Z.to_nat (g_n2 g)) (fun p => nth_error (s_verts (fst p)) (snd p / 2)) (dualRow son g)).
  intros e i I Hi. destruct (three I) as (a & v & c & V). cbn [fst snd].
  assert (exists d, nth_error (s_verts e) (i / 2) = Some d) as (d & D).
  { rewrite V. sons i; cbn; eauto. }
  exists d. split; [exact D|]. assert (R : 0 <= d < g_n2 g) by (apply (@vertex_range e); [exact I|eapply nth_error_In; eauto]).
  split; [lia|]. unfold dualRow. rewrite D. cbn [obind]. rewrite zget_zrange by exact R. reflexivity.
Qed.
Lemma constants_core : exists b, baryConstantSpace son g = Some b /\
    globalDofCount (b_map b) = length (g_elts g) /\ consistent (b_map b) /\ flatEnumerates (b_map b) /\
    (forall e i, In e (g_elts g) -> (i < 6)%nat -> exists d, Some (s_index e) = Some d /\ globalDof (b_map b) (son (s_index e) i) 0 d) /\
    forall u e i, length u = length (g_elts g) -> In e (g_elts g) -> (i < 6)%nat ->
      exists v x, Some (s_index e) = Some v /\ nth_error u (Z.to_nat v) = Some x /\ evalConstant b u (son (s_index e) i) = Some x.
Proof.
  apply (@constant_core (length (g_elts g)) (fun p => Some (s_index (fst p))) (constantRow son g)).
  intros e i I Hi. cbn [fst snd]. exists (s_index e). split; [reflexivity|]. assert (R : 0 <= s_index e < g_n0 g) by now apply G.
  split; [exact R|]. unfold constantRow. rewrite zget_zrange by exact R. reflexivity.
Qed.
End Scalar.

(** discontinuous P1 *)
Lemma allDofs_1 act es : (forall e n, In e es -> isNode 1 n -> act e n = true) ->
  allDofs 1 act (orderDP 1) es = flat_map (fun e => [[(s_index e, 0%nat)]; [(s_index e, 1%nat)]; [(s_index e, 2%nat)]]) es.
Proof.
  intro H. unfold allDofs. induction es as [|e es IH]; [reflexivity|]. cbn [flat_map]. rewrite IH by (intros; apply H; auto; now right). f_equal.
  assert (forall n, In n (orderDP 1) -> act e n = true) as A by (intros n I; apply H; [now left|now apply in_orderDP]).
  change (orderDP 1) with [(0, 0); (1, 0); (0, 1)]%nat in *. cbn [filter]. rewrite !A by (cbn; tauto). reflexivity.
Qed.
Lemma nth_triples A B (f h k : A -> B) : forall es p e, nth_error es p = Some e ->
  let l := flat_map (fun e => [f e; h e; k e]) es in
  nth_error l (3 * p) = Some (f e) /\ nth_error l (3 * p + 1) = Some (h e) /\ nth_error l (3 * p + 2) = Some (k e).
Proof.
  induction es as [|x es IH]; intros [|p] e E; cbn in E; try discriminate.
  - injection E as ->. cbn. auto.
  - specialize (IH p e E). cbv zeta in *. replace (3 * S p)%nat with (S (S (S (3 * p)))) by lia. cbn [flat_map app nth_error Nat.add]. exact IH.
Qed.
Lemma dp1_whole g ref elem : gridOk g -> triangulation g -> (ref || elem) = true ->
  exists m : dofmap Rsr, polyDPAssign g (wholeGrid g) ref elem 1 = Some (m, Z.of_nat (flatLocalDofCount m)) /\ consistent m /\ globalDofCount m = (3 * length (g_elts g))%nat /\
  forall p e, nth_error (g_elts g) p = Some e -> zget (dm_l2g m) (s_index e) = Some [3 * Z.of_nat p; 3 * Z.of_nat p + 1; 3 * Z.of_nat p + 2] /\
      zget (dm_w m) (s_index e) = Some (repeat 1%R 3).
Proof.
  intros G T M. destruct (@dp_core Rsr g (wholeGrid g) ref elem 1 G T) as (m & tab & E & (C & FE & GD & W & R) & G2L & CNT & AC & _); [lia|exact M|].
  pose proof G as (_ & RI & RF & RV & _).
  exists m. split; [exact E|]. split; [exact C|].
  assert (ACT : forall e n, In e (g_elts g) -> isNode 1 n -> actDP (wholeGrid g) ref elem 1 e n = true).
  { intros e n I J. unfold actDP. cbn [Nat.eqb].
    assert (S0 : inSeg (wholeGrid g) 0 (s_index e) = true). { apply inSeg_spec; [lia|]. apply whole_holds; [lia|]. now apply RI. }
    rewrite S0, orb_true_r. destruct T as (T1 & _). destruct (T1 e I) as (a & b & c & i & j & k & V & _ & F).
    destruct n as [x y]. unfold isNode in J. cbn [fst snd] in J.
    assert (exists k, (k < 3)%nat /\ classify 1 (x, y) = Corner k) as (kk & Hk & ->).
    { destruct x as [|[|x]], y as [|[|y]]; try lia; cbn; [exists 0%nat|exists 2%nat|exists 1%nat]; split; auto; lia. }
    assert (S2 : inSeg (wholeGrid g) 2 (vert e kk) = true).
    { apply inSeg_spec; [lia|]. apply whole_holds; [lia|]. apply (RV e); [exact I|]. unfold hasVertex, vert. rewrite V. destruct kk as [|[|[|]]]; cbn; auto. lia. }
    rewrite S2. now rewrite orb_true_r. }
  rewrite (allDofs_1 ACT) in G2L.
  assert (LEN : globalDofCount m = (3 * length (g_elts g))%nat).
  { unfold globalDofCount. rewrite G2L. clear. induction (g_elts g); [reflexivity|]. cbn [flat_map app length] in *. rewrite IHl. lia. }
  split; [exact LEN|]. intros p e N. pose proof (nth_error_In _ _ N) as I.
  assert (LP : (p < length (g_elts g))%nat) by (apply nth_error_Some; congruence).
  destruct (@nth_triples selt (list ldof) (fun e => [(s_index e, 0%nat)]) (fun e => [(s_index e, 1%nat)]) (fun e => [(s_index e, 2%nat)]) _ _ _ N) as (N0 & N1 & N2).
  rewrite <- G2L in N0, N1, N2. pose proof C as (C1 & C2 & C3).
  assert (X : forall k d, (d < globalDofCount m)%nat -> nth_error (dm_g2l m) d = Some [(s_index e, k)] -> globalDof m (s_index e) k (Z.of_nat d)).
  { intros k d L H. destruct (C3 d L) as (l & Q & _ & B). apply B. rewrite Q in H. injection H as ->. now left. }
  apply X in N0; [|lia]. apply X in N1; [|lia]. apply X in N2; [|lia].
  destruct N0 as (ds & D & E0). destruct N1 as (ds1 & D1 & E1). destruct N2 as (ds2 & D2 & E2).
  assert (ds1 = ds) by congruence. assert (ds2 = ds) by congruence. subst ds1 ds2.
  assert (E3 : nth_error ds 3 = None).
  { destruct (nth_error ds 3) as [x|] eqn:Q; [|reflexivity]. assert (globalDof m (s_index e) 3 x) as Y by (exists ds; auto).
    apply GD in Y as (e' & n & _ & _ & Y & _). cbn in Y. discriminate. }
  split.
  - rewrite D. f_equal. destruct ds as [|d0 [|d1 [|d2 [|]]]]; cbn [nth_error] in E0, E1, E2, E3; try discriminate. injection E0 as ->. injection E1 as ->. injection E2 as ->. repeat (apply f_equal2; [lia|]). reflexivity.
  - assert (WW : forall k, (k < 3)%nat -> dofWeight m (s_index e) k 1%R) by (intros k Hk; apply (W e k I); exact Hk).
    destruct (WW 0%nat) as (ws & A & B0); [lia|]. destruct (WW 1%nat) as (ws1 & A1 & B1); [lia|]. destruct (WW 2%nat) as (ws2 & A2 & B2); [lia|].
    assert (ws1 = ws) by congruence. assert (ws2 = ws) by congruence. subst ws1 ws2.
    assert (B3 : nth_error ws 3 = None).
    { destruct (nth_error ws 3) as [x|] eqn:Q; [|reflexivity]. destruct (proj2 (C2 (s_index e) 3%nat)) as (d & Y); [exists x, ws; auto|].
      apply GD in Y as (e' & n & _ & _ & Y & _). cbn in Y. discriminate. }
    rewrite A. f_equal. destruct ws as [|d0 [|d1 [|d2 [|]]]]; cbn in *; try discriminate. injection B0 as ->. injection B1 as ->. injection B2 as ->. reflexivity.
Qed.
Lemma numberedPairs_spec g : map snd (numberedPairs g) = sonPairs g /\
  forall p e i, In (p, (e, i)) (numberedPairs g) -> nth_error (g_elts g) p = Some e.
Proof.
  unfold numberedPairs, sonPairs.
  assert (H : forall es a, map snd (flat_map (fun pe : nat * selt => map (fun i => (fst pe, (snd pe, i))) (seq 0 6)) (combine (seq a (length es)) es)) = flat_map (fun e => map (fun i => (e, i)) (seq 0 6)) es).
  { induction es as [|e es IH]; intro a; [reflexivity|]. cbn [length seq combine flat_map]. rewrite map_app, IH, map_map. reflexivity. }
  split; [apply H|]. intros p e i I. apply in_flat_map in I as ((p', e') & I & J). apply in_map_iff in J as (i' & Q & _). cbn in Q. injection Q as -> -> ->.
  assert (K : forall (es : list selt) a p e, In (p, e) (combine (seq a (length es)) es) -> (a <= p)%nat /\ nth_error es (p - a) = Some e).
  { clear. induction es as [|x es IH]; intros a p e I; cbn in I; [destruct I|]. destruct I as [Q|I].
    - injection Q as -> ->. rewrite Nat.sub_diag. auto.
    - apply IH in I as (L & N). split; [lia|]. replace (p - a)%nat with (S (p - S a)) by lia. exact N. }
  apply K in I as (_ & N). now rewrite Nat.sub_0_r in N.
Qed.
Lemma triangulation_triangular g : triangulation g -> triangular g.
Proof. intros (T & _) e I. destruct (T e I) as (a & b & c & i & j & k & V & _). now rewrite V. Qed.
Lemma disc_core g son ref elem : gridOk g -> triangulation g -> sonNumbering (g_n0 g) son -> (ref || elem) = true ->
  exists m b, polyDPAssign g (wholeGrid g) ref elem 1 = Some (m, Z.of_nat (flatLocalDofCount m)) /\ baryDiscLinearSpace son g = Some b /\
  globalDofCount (b_map b) = globalDofCount m /\ consistent (b_map b) /\ flatEnumerates (b_map b) /\
  forall u e i q, length u = globalDofCount m -> In e (g_elts g) -> (i < 6)%nat ->
    exists x, evaluateP1 m u e (sonPoint i q) = Some x /\ evalBaryLinear b u (son (s_index e) i) q = Some x.
Proof.
  intros G T SN M. destruct (@dp1_whole g ref elem G T M) as (m & E & C & CNT & P).
  destruct (numberedPairs_spec g) as (NP & NI).
  set (n := length (g_elts g)) in *.
  set (mk := fun x : nat * (selt * nat) => let p := Z.of_nat (fst x) in let i := snd (snd x) in
    Row (son (s_index (fst (snd x))) i) (turn i [3 * p; 3 * p + 1; 3 * p + 2]) (repeat 1%R 3) (element2Basis i) (Nat.even i)).
  assert (IX : forall p e i, In (p, (e, i)) (numberedPairs g) -> nth_error (g_elts g) p = Some e /\ (i < 6)%nat /\ (p < n)%nat).
  { intros p e i I. pose proof (NI p e i I) as N. split; [exact N|]. split.
    - assert (J : In (e, i) (sonPairs g)) by (rewrite <- NP; apply (in_map snd) in I; exact I). now apply in_sonPairs in J.
    - apply nth_error_Some. congruence. }
  destruct (@build g son (3 * n) G SN _ (numberedPairs g) snd mk NP) with (f := discLinearRow son n) as (b & EB & CB & CC & FE & RB).
  - intros (p, (e, i)) I. destruct (IX p e i I) as (N & Hi & Lp). split; [|reflexivity]. apply linear_rowOk; [exact Hi|reflexivity|].
    cbn [fst snd]. intros d [<-|[<-|[<-|[]]]]; lia.
  - intros (p, (e, i)) I. destruct (IX p e i I) as (N & Hi & Lp). unfold discLinearRow. cbn [map seq].
    rewrite !zget_zrange by lia. cbn [oseq obind]. rewrite (@scatter_turn i) by exact Hi. cbn [obind]. unfold mk. cbn [fst snd]. now rewrite Z.add_0_r.
  - exists m, b. split; [exact E|]. split; [exact EB|]. split; [rewrite CB, CNT; reflexivity|]. split; [exact CC|]. split; [exact FE|].
    intros u e i q L I Hi. destruct (In_nth_error _ _ I) as (p & N).
    assert (J : In (p, (e, i)) (numberedPairs g)).
    { unfold numberedPairs. apply in_flat_map. exists (p, e). split; [|apply (in_map (fun i => (p, (e, i)))); apply in_seq; lia].
      assert (K : forall (es : list selt) a p, nth_error es p = Some e -> In ((a + p)%nat, e) (combine (seq a (length es)) es)).
      { clear. induction es as [|x es IH]; intros a [|p] H; cbn in *; try discriminate.
        - left. injection H as ->. f_equal. lia.
        - right. specialize (IH (S a) p H). now replace (a + S p)%nat with (S a + p)%nat by lia. }
      now apply (K _ 0%nat). }
    destruct (RB _ J) as (R1 & R2 & R3). cbn [fst snd mk r_dofs r_w r_type] in *.
    destruct (P p e N) as (P1 & P2).
    eapply scalar_transfer; eauto. congruence.
Qed.
