(** Super spaces. *)
From Coq Require Import Permutation Sorted.
From Verif Require Import Base SegModel SegSpec SegProofs AsmModel AsmSpec SpaceModel SpaceSpec SpaceProofs SpaceP1Proofs RangeProofs PolyModel PolySpec PolyProofs1 PolyProofs2 PolyProofs3 PolyProofs4 PolyProofs5 PolyProofs6 PolyProofs7.
Set Implicit Arguments.
Unset Strict Implicit.
Local Open Scope Z_scope.

Lemma segmentOf_fits g domains closed : gridOk g -> fits g (segmentOf g domains closed).
Proof.
  intros (_ & G2 & G3 & G4 & G5). destruct domains as [D|]; [|intros c _; split; [reflexivity|intros x []]].
  destruct closed; cbn [segmentOf].
  - unfold closedDomain. destruct (closedFold D (g_elts g) [] [] []) as (x0 & a1 & a2 & E & H0 & _). rewrite E. intros c L. split; [reflexivity|]. cbn [excluded].
    intros x I. destruct c as [|[|[|c]]]; cbn [gridCounts]; [| | |lia].
    + apply H0 in I as [[]|(e & I & _ & <-)]. now apply G2.
    + apply filter_In in I as (I & _). now apply in_zrange.
    + apply filter_In in I as (I & _). now apply in_zrange.
  - unfold openDomain. destruct (openFold D (g_elts g) (fun _ => 0) [] [] []) as (x0 & x1 & x2 & E & H0 & H1 & H2). rewrite E. intros c L. split; [reflexivity|]. cbn [excluded].
    intros x I. destruct c as [|[|[|c]]]; cbn [gridCounts]; [| | |lia].
    + apply H0 in I as [[]|(e & I & _ & <-)]. now apply G2.
    + apply in_fold_sinsert in I as [I|I]; [apply filter_In in I as (I & _); now apply in_zrange|]. apply H1 in I as [[]|(e & I & _ & F)]. eauto.
    + apply childrenFold in I as [I|(e & f & I & F & _ & V)]; [apply H2 in I as [[]|(e & I & _ & F)]; eauto|]. eauto.
Qed.

Lemma globalDof_fun (K : star_ring) (m : dofmap K) e i d d' : globalDof m e i d -> globalDof m e i d' -> d = d'.
Proof. intros (ds & A & B) (ds' & A' & B'). assert (ds = ds') by congruence. subst. congruence. Qed.

Lemma super_contains (K : star_ring) (m M : dofmap K) : consistent m -> consistent M -> (forall d l, nth_error (dm_g2l M) d = Some l -> length l = 1%nat) ->
  (forall e i, (exists d, globalDof m e i d) <-> (exists d, globalDof M e i d)) ->
  (forall e i d d', globalDof m e i d -> globalDof M e i d' -> 0 <= d -> 0 <= d') -> subspaceOf m M.
Proof.
  intros C1 C2 S1 EX AC. split; [exact EX|]. intros u.
  exists (fun k => match nth_error (dm_g2l M) k with
    | Some [(e, i)] => match zget (dm_l2g m) e with Some ds => match nth_error ds i with Some d => localCoefficient u d | None => zero end | None => zero end
    | _ => zero end).
  intros e i d d' H H'. destruct C2 as (R & _ & B). destruct (R _ _ _ H') as [->|R'].
  - assert (d < 0) by (destruct (Z_lt_le_dec d 0); [assumption|]; specialize (AC _ _ _ _ H H'); lia). unfold localCoefficient. destruct (Z.ltb_spec d 0); [reflexivity|lia].
  - destruct (B (Z.to_nat d')) as (l & E & _ & I); [lia|]. rewrite Z2Nat.id in I by lia. specialize (proj2 (I e i) H') as J. pose proof (S1 _ _ E) as L.
    destruct l as [|a [|b l]]; try discriminate. destruct J as [->|[]]. unfold localCoefficient at 2. destruct (Z.ltb_spec d' 0); [lia|]. rewrite E.
    destruct H as (ds & A1 & A2). now rewrite A1, A2.
Qed.

(** activity of the P spaces, order 1 included *)
Lemma coreP_spec (K : star_ring) g p domains closed strict : gridOk g -> triangulation g -> (1 <= p <= 10)%nat ->
  exists m : dofmap K, coreP g (Z.of_nat p) domains closed strict = Some m /\ consistent m /\
   let s := segmentOf g domains closed in
   forall x i, (forall d, globalDof m x i d -> exists e n, In e (g_elts g) /\ x = s_index e /\ nth_error (nodes p) i = Some n /\
        (0 <= d -> nodeOn s p e n /\ (domains <> None -> strict = true -> holds s 0 (s_index e)))) /\
      (forall e n, In e (g_elts g) -> x = s_index e -> nth_error (nodes p) i = Some n -> exists d, globalDof m x i d).
Proof.
  intros G T B. unfold coreP. destruct (Z.leb_spec 1 (Z.of_nat p)); [|lia]. destruct (Z.leb_spec (Z.of_nat p) 10); [|lia]. cbn [andb negb].
  set (s := segmentOf g domains closed). set (st := match domains with None => false | Some _ => strict end).
  assert (ST : forall P : Prop, (st = true -> P) -> domains <> None -> strict = true -> P) by (intros P H1 ND Q; apply H1; unfold st; destruct domains; [exact Q|congruence]).
  destruct (Z.eqb_spec (Z.of_nat p) 1) as [P1|P1].
  - assert (p = 1%nat) by lia. subst p. destruct (@p1_core K g s st G (segmentOf_fits _ _ G)) as (m & vs & E & C & _ & _ & _ & _ & P). exists m. split; [exact E|]. split; [exact C|].
    cbv zeta. intros x i.
    assert (LEN : length (dm_l2g m) = length (g_elts g)) by (eapply p1_shape; eauto).
    assert (IO : indicesOk (g_elts g)) by now apply gridOk_indices.
    assert (ON : forall e n k, nth_error (nodes 1) k = Some n -> nodeOn s 1 e n <-> holds s 2 (vert e k)).
    { intros e n k N. destruct k as [|[|[|k]]]; cbn in N; [injection N as <-|injection N as <-|injection N as <-|destruct k; discriminate]; reflexivity. }
    assert (VK : forall e k, In e (g_elts g) -> (k < 3)%nat -> nth_error (s_verts e) k = Some (vert e k)).
    { intros e k I L. destruct (distinct_of T I) as (a & b & c & V & _). unfold vert. rewrite V. destruct k as [|[|[|k]]]; [| | |lia]; reflexivity. }
    assert (V3 : forall e, In e (g_elts g) -> length (s_verts e) = 3%nat) by (intros e I; destruct (distinct_of T I) as (a & b & c & -> & _); reflexivity).
    split.
    + intros d (ds & A1 & A2). destruct (@indices_cover _ x IO) as (e & I & <-); [rewrite <- LEN; now apply zget_lt in A1|].
      destruct (P e I) as (ds' & B1 & B2 & _ & B4). assert (ds' = ds) by congruence. subst ds'. rewrite V3 in B2 by exact I.
      assert (L : (i < 3)%nat) by (rewrite <- B2; apply nth_error_Some; congruence).
      destruct (nth_error (nodes 1) i) as [n|] eqn:N; [|apply nth_error_None in N; cbn in N; lia]. exists e, n. split; [exact I|]. split; [reflexivity|]. split; [reflexivity|].
      intros D. destruct (B4 i _ (VK e i I L)) as (d' & D1 & D2). assert (d' = d) by congruence. subst d'. rewrite (ON e n i N).
      destruct D2 as [(-> & _)|(H1 & H2 & _)]; [lia|]. split; [exact H1|]. now apply ST.
    + intros e n I -> N. assert (L : (i < 3)%nat) by (change 3%nat with (length (nodes 1)); apply nth_error_Some; congruence).
      destruct (P e I) as (ds & B1 & B2 & _ & B4). destruct (B4 i _ (VK e i I L)) as (d & D1 & _). exists d, ds. auto.
  - destruct (@poly_core K g s st p G T B) as (m & tab & E & (C & _ & GD & _ & _) & AC & _). rewrite E. cbn [option_map fst]. exists m. split; [reflexivity|]. split; [exact C|]. cbv zeta. intros x i. split.
    + intros d Q. apply GD in Q as (e & n & I & -> & N & ->). exists e, n. split; [exact I|]. split; [reflexivity|]. split; [exact N|]. intros D.
      assert (J : isNode p n) by (eapply nth_slot; eauto). destruct (proj1 (AC e n I J)) as (A1 & A2).
      { destruct (tab e n) as [d|]; [eauto|cbn in D; lia]. }
      split; [exact A1|]. now apply ST.
    + intros e n I -> N. eexists. apply GD. exists e, n. eauto.
Qed.

(** activity of the super space *)
Lemma openSegment_whole g D e p n : gridOk g -> triangulation g -> In e (g_elts g) -> (1 <= p)%nat -> isNode p n -> nodeOn (openDomain g D) p e n -> holds (openDomain g D) 0 (s_index e).
Proof.
  intros G T I pos N H.
  assert (X : inDomain D e).
  { apply nodeOn_classify in H. pose proof (classify_spec pos N) as C. destruct (classify p n) as [k|k l|].
    - destruct C as (L & _). destruct (open_spec g D (vert e k)) as (_ & _ & H2 & _). apply H2 in H as (_ & H & _). apply H; [exact I|]. eapply vert_in; eauto.
    - destruct C as (L & _). destruct (open_spec g D (facet e k)) as (_ & H2 & _). apply H2 in H as (_ & H & _). apply H; [exact I|]. eapply facet_in; eauto.
    - destruct (open_spec g D (s_index e)) as (H2 & _). apply H2 in H as (_ & H). now apply H. }
  apply open_spec. pose proof G as (_ & G2 & _). split; [now apply G2|]. intros e' I' E. assert (e' = e) by (eapply index_unique; eauto). now subst.
Qed.
Lemma superSpace_core (K : star_ring) g p domains closed strict : gridOk g -> triangulation g -> (1 <= p <= 10)%nat ->
  exists m M : dofmap K, continuousPolynomialSpace g (Z.of_nat p) domains closed strict = Some (m, M) /\ consistent m /\ consistent M /\
    (forall d l, nth_error (dm_g2l M) d = Some l -> length l = 1%nat) /\ subspaceOf m M.
Proof.
  intros G T B. destruct (@coreP_spec K g p domains closed strict G T B) as (m & E & C & A). cbv zeta in A.
  unfold continuousPolynomialSpace. rewrite E. cbn [obind]. set (s := segmentOf g domains closed) in *.
  set (ref := match domains with None => true | Some _ => closed end). set (el := match domains with None => false | Some _ => if closed then strict else true end).
  assert (RE : (ref || el) = true) by (unfold ref, el; destruct domains, closed; reflexivity).
  destruct (@dp_core K g s ref el p G T (proj2 B) RE) as (M & tab & EM & (CM & _ & GM & _ & RM) & G2L & _ & AM & _).
  assert (ED : (if negb closed then coreDP g (Z.of_nat p) domains closed false true else coreDP g (Z.of_nat p) domains closed true strict) = Some M).
  { unfold coreDP. fold s. destruct (Z.leb_spec 0 (Z.of_nat p)); [|lia]. destruct (Z.leb_spec (Z.of_nat p) 10); [|lia]. destruct (Z.eqb_spec (Z.of_nat p) 0); [lia|]. cbn [andb orb negb].
    unfold ref, el in EM. destruct closed, domains; cbn [orb negb]; rewrite EM; reflexivity. }
  rewrite ED. cbn [obind]. exists m, M. split; [reflexivity|]. split; [exact C|]. split; [exact CM|].
  assert (S1 : forall d l, nth_error (dm_g2l M) d = Some l -> length l = 1%nat).
  { intros d l H. rewrite G2L in H. apply nth_error_In in H. apply in_allDofs in H as (e & n & _ & _ & _ & ->); [reflexivity|]. apply in_orderDP. }
  split; [exact S1|]. apply super_contains; auto.
  - intros x i. destruct (A x i) as (A1 & A2). split.
    + intros (d & H). destruct (A1 d H) as (e & n & I & -> & N & _). eexists. apply GM. exists e, n. eauto.
    + intros (d & H). apply GM in H as (e & n & I & -> & N & _). eapply A2; eauto.
  - intros x i d d' H H' D. destruct (A x i) as (A1 & _). destruct (A1 d H) as (e & n & I & -> & N & AC). destruct (AC D) as (H1 & H2).
    assert (J : isNode p n) by (eapply nth_slot; eauto).
    assert (ACT : actDP s ref el p e n = true).
    { assert (EL : el = true -> inSeg s 0 (s_index e) = true).
      { intros Q. apply inSegP; [lia|]. unfold el in Q. destruct domains as [Ds|]; [|discriminate]. destruct closed.
        - apply H2; [discriminate|exact Q].
        - unfold s. cbn [segmentOf]. exact (@openSegment_whole g Ds e p n G T I (proj1 B) J H1). }
      assert (EE : negb el || inSeg s 0 (s_index e) = true) by (destruct el; [now apply EL|reflexivity]).
      unfold actDP. destruct (p =? 0)%nat eqn:Q; [apply Nat.eqb_eq in Q; lia|]. apply nodeOn_classify in H1. destruct (classify p n) as [k|k l|].
      - rewrite EE. apply inSegP in H1; [|lia]. rewrite H1. now rewrite orb_true_r.
      - rewrite EE. apply inSegP in H1; [|lia]. rewrite H1. now rewrite orb_true_r.
      - apply inSegP; [lia|exact H1]. }
    destruct (proj2 (AM e n I J) ACT) as (dd & TD).
    assert (GD2 : globalDof M (s_index e) i dd) by (apply GM; exists e, n; rewrite TD; auto).
    assert (d' = dd) by (eapply globalDof_fun; eauto). subst d'. apply (RM e n dd I J TD).
Qed.
