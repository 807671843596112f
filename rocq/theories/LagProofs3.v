From Coq Require Import Reals Lra Lia Permutation.
From Verif Require Import Base ComplexR SegModel SegSpec SegProofs AsmModel SpaceModel SpaceSpec SpaceProofs SpaceP1Proofs PolyModel PolySpec PolyProofs1 PolyProofs2 PolyProofs3 PolyProofs4 PolyProofs5 PolyProofs6
  VecModel VecSpec VecProofs VecProofs3 LagModel LagSpec LagProofs LagProofs2.
Set Implicit Arguments.
Unset Strict Implicit.
Local Open Scope R_scope.

Lemma tri_distinct g e : triangulation g -> In e (g_elts g) -> distinct e.
Proof. intros (A & _) I. destruct (A e I) as (a & b & c & i & j & k & V & ND & _). exists a, b, c. auto. Qed.
Lemma nodeOn_same g s p e n e' n' : triangulation g -> (1 <= p)%nat -> In e (g_elts g) -> In e' (g_elts g) -> isNode p n -> isNode p n' ->
  samePoint p e n e' n' -> nodeOn s p e n <-> nodeOn s p e' n'.
Proof.
  intros T pos I I' N N' SP. rewrite !nodeOn_classify. pose proof (tri_distinct T I) as D. pose proof (tri_distinct T I') as D'.
  pose proof (classify_spec pos N) as C. pose proof (classify_spec pos N') as C'.
  destruct (classify p n) as [k|k l|], (classify p n') as [k'|k' l'|].
  - destruct C as (L & ->), C' as (L' & ->). apply same_cc in SP; auto. now rewrite SP.
  - exfalso. destruct C as (L & ->), C' as (L' & W' & ->). apply (@same_cs p pos e k e' k' l'); auto.
  - exfalso. destruct C as (L & ->). apply (@same_ci p pos e k e' n'); auto.
  - exfalso. apply samePoint_sym in SP. destruct C as (L & W & ->), C' as (L' & ->). apply (@same_cs p pos e' k' e k l); auto.
  - destruct C as (L & W & ->), C' as (L' & W' & ->). apply same_ss in SP; auto.
    assert (F : forall x k, In x (g_elts g) -> (k < 3)%nat -> In (facet x k, [endA x k; endB x k]) (s_facets x)).
    { clear -T. intros x k I L. destruct T as (A & _). destruct (A x I) as (a & b & c & i & j & l & V & _ & FF). unfold facet, endA, endB, vert. rewrite FF, V.
      destruct k as [|[|[|]]]; [| | |lia]; cbn; auto. }
    destruct T as (_ & B & _). assert (E : facet e k = facet e' k').
    { apply (B _ _ _ _ I I' (F e k I L) (F e' k' I' L')). cbn [snd]. intros v. cbn [In]. destruct SP as [(-> & -> & _)|(-> & -> & _)]; tauto. }
    now rewrite E.
  - exfalso. destruct C as (L & W & ->). apply (@same_si p pos e k l e' n'); auto.
  - exfalso. apply samePoint_sym in SP. destruct C' as (L' & ->). apply (@same_ci p pos e' k' e n); auto.
  - exfalso. apply samePoint_sym in SP. destruct C' as (L' & W' & ->). apply (@same_si p pos e' k' l' e n); auto.
  - destruct T as (_ & _ & T3). assert (e = e') by (apply T3; auto; exact (@same_ii p pos e n e' n' D D' C C' SP)). now subst.
Qed.

(** evaluate in terms of nodes *)
Lemma eval_pk (m : dofmap Rsr) u p e (c : nat * nat -> R) q : consistent m -> length u = globalDofCount m -> (1 <= p)%nat ->
  (forall i n, nth_error (nodes p) i = Some n -> exists d, globalDof m (s_index e) i d /\ dofWeight m (s_index e) i 1 /\ coefficient u d = c n) ->
  evaluatePk p m u e q = Some (rsum (nodes p) (fun n => pkFunction p n q * c n)).
Proof.
  intros C L P H.
  assert (N0 : exists n, nth_error (nodes p) 0 = Some n). { destruct (nodes p) eqn:E; [|eexists; reflexivity]. exfalso. assert (X : In (0, 0)%nat (nodes p)) by (apply in_nodes; unfold isNode; cbn; lia). rewrite E in X. destruct X. }
  destruct N0 as (n0 & N0). destruct (H _ _ N0) as (d0 & _ & W0 & _).
  destruct (local_coefficients C L (ex_intro _ _ W0)) as (cs & E & N). unfold evaluatePk. rewrite E. cbn [obind].
  assert (V : forall i n, nth_error (nodes p) i = Some n -> nth_error cs i = Some (c n)).
  { intros i n I. destruct (H i n I) as (d & D & W & Q). rewrite (N i d _ D W), <- Q. f_equal. ring. }
  assert (LE : (length (nodes p) <= length cs)%nat).
  { destruct (Nat.le_gt_cases (length (nodes p)) (length cs)) as [?|B]; [assumption|]. exfalso.
    destruct (nth_error (nodes p) (length cs)) as [n|] eqn:Q; [|apply nth_error_None in Q; lia]. apply V in Q.
    assert (nth_error cs (length cs) = None) by (apply nth_error_None; lia). congruence. }
  rewrite (sumScalar_spec _ LE). f_equal. rewrite <- (rsum_nodes (nodes p) (0%nat, 0%nat) (fun n => pkFunction p n q * c n)). apply rsum_ext. intros i I. apply in_seq in I. f_equal.
  apply nth_error_nth. apply V. apply nth_error_nth'. lia.
Qed.
Lemma eval_p1 (m : dofmap Rsr) u e q : evaluateP1 m u e q = evaluatePk 1 m u e q.
Proof.
  unfold evaluateP1, evaluatePk. destruct (localCoefficients m u (s_index e)) as [cs|]; [|reflexivity]. cbn [obind]. change (length (nodes 1)) with 3%nat. unfold sumScalar.
  cbn [seq fold_left]. rewrite !p1_pk by lia. reflexivity.
Qed.
(** the value at a node *)
Lemma nodal_value p n (c : nat * nat -> R) : (1 <= p)%nat -> isNode p n -> rsum (nodes p) (fun k => pkFunction p k (nodePoint p n) * c k) = c n.
Proof.
  intros P N. rewrite (@rsum_filter _ (fun k => Nat.eqb (fst k) (fst n) && Nat.eqb (snd k) (snd n))).
  - assert (F : forall l, NoDup l -> In n l -> filter (fun k => Nat.eqb (fst k) (fst n) && Nat.eqb (snd k) (snd n)) l = [n]).
    { induction l as [|x l IH]; intros ND I; [destruct I|]. inversion ND as [|? ? N1 N2]; subst. cbn [filter].
      destruct (Nat.eqb_spec (fst x) (fst n)), (Nat.eqb_spec (snd x) (snd n)); cbn [andb].
      - assert (x = n) by (destruct x, n; cbn in *; congruence). subst x. f_equal. clear -N1. induction l as [|y l IH]; [reflexivity|]. cbn [filter].
        destruct (Nat.eqb_spec (fst y) (fst n)), (Nat.eqb_spec (snd y) (snd n)); cbn [andb]; try (apply IH; intro; apply N1; now right).
        exfalso. apply N1. left. destruct y, n; cbn in *; congruence.
      - destruct I as [->|I]; [congruence|auto].
      - destruct I as [->|I]; [congruence|auto].
      - destruct I as [->|I]; [congruence|auto]. }
    rewrite F by (apply nodes_NoDup || now apply in_nodes). unfold rsum. cbn [fold_right]. rewrite (pk_nodal P N N), !Nat.eqb_refl. cbn [andb]. ring.
  - intros k I E. apply in_nodes in I. rewrite (pk_nodal P I N), E. ring.
Qed.

(** ---- the spaces ---- *)
(** local dofs sit at the nodes with weight one; [c e n] is the coefficient at node n of e *)
Definition nodal (g : sgrid) (p : nat) (m : dofmap Rsr) (u : list R) (c : selt -> nat * nat -> R) : Prop :=
  forall e i n, In e (g_elts g) -> nth_error (nodes p) i = Some n -> exists d, globalDof m (s_index e) i d /\ dofWeight m (s_index e) i 1 /\ coefficient u d = c e n.
Lemma nodal_eval g p m u c e q : nodal g p m u c -> consistent m -> length u = globalDofCount m -> (1 <= p)%nat -> In e (g_elts g) ->
  evaluatePk p m u e q = Some (rsum (nodes p) (fun n => pkFunction p n q * c e n)).
Proof. intros H C L P I. apply (eval_pk q (c := c e) C L P). intros i n N. now apply H. Qed.

Lemma poly_nodal g s strict p : gridOk g -> triangulation g -> (1 <= p <= 10)%nat ->
  exists m, polyAssign (K := Rsr) g s strict (Z.of_nat p) = Some (m, Z.of_nat (flatLocalDofCount m)) /\ consistent m /\
   forall u, length u = globalDofCount m -> exists c, nodal g p m u c /\
    (forall e n, In e (g_elts g) -> isNode p n -> ~ (nodeOn s p e n /\ (strict = true -> holds s 0 (s_index e))) -> c e n = 0) /\
    (forall e n e' n', In e (g_elts g) -> In e' (g_elts g) -> isNode p n -> isNode p n' -> (strict = true -> (holds s 0 (s_index e) <-> holds s 0 (s_index e'))) ->
      samePoint p e n e' n' -> c e n = c e' n').
Proof.
  intros G T B. destruct (@poly_core Rsr g s strict p G T B) as (m & tab & E & (C & FE & GD & W & R) & AC & SA & ON). exists m. split; [exact E|]. split; [exact C|].
  intros u L. exists (fun e n => coefficient u (val (tab e n))). split; [|split].
  - intros e i n I N. exists (val (tab e n)). split; [apply GD; exists e, n; auto|]. split; [apply W; [exact I|apply nth_error_Some; congruence]|reflexivity].
  - intros e n I N NA. destruct (tab e n) as [d|] eqn:Q; [exfalso; apply NA, AC; eauto|]. unfold coefficient. reflexivity.
  - intros e n e' n' I I' N N' ST SP. assert (A1 := AC e n I N). assert (A2 := AC e' n' I' N'). assert (NO := @nodeOn_same g s p e n e' n' T (proj1 B) I I' N N' SP).
    destruct (tab e n) as [d|] eqn:Q, (tab e' n') as [d'|] eqn:Q'.
    + rewrite (proj2 (SA e n d e' n' d' I I' N N' Q Q') SP). reflexivity.
    + exfalso. destruct (proj1 A1) as (X & Y); [eauto|]. destruct (proj2 A2) as (? & ?); [|discriminate]. split; [tauto|]. intros S. now apply (ST S), Y.
    + exfalso. destruct (proj1 A2) as (X & Y); [eauto|]. destruct (proj2 A1) as (? & ?); [|discriminate]. split; [tauto|]. intros S. now apply (ST S), Y.
    + reflexivity.
Qed.
Lemma p1_nodal g s strict : gridOk g -> fits g s -> triangulation g ->
  exists m, p1Assign (K := Rsr) g s strict = Some m /\ consistent m /\
   forall u, length u = globalDofCount m -> exists c, nodal g 1 m u c /\
    (forall e n, In e (g_elts g) -> isNode 1 n -> ~ (nodeOn s 1 e n /\ (strict = true -> holds s 0 (s_index e))) -> c e n = 0) /\
    (forall e n e' n', In e (g_elts g) -> In e' (g_elts g) -> isNode 1 n -> isNode 1 n' -> (strict = true -> (holds s 0 (s_index e) <-> holds s 0 (s_index e'))) ->
      samePoint 1 e n e' n' -> c e n = c e' n').
Proof.
  intros G F T. destruct (@p1_core Rsr g s strict G F) as (m & vs & E & C & FE & SS & LV & IV & P). exists m. split; [exact E|]. split; [exact C|].
  set (slot1 := fun n : nat * nat => (fst n + 2 * snd n)%nat).
  assert (ON : forall e n, In e (g_elts g) -> isNode 1 n -> (slot1 n < 3)%nat /\ nth_error (nodes 1) (slot1 n) = Some n /\ (nodeOn s 1 e n <-> holds s 2 (vert e (slot1 n))) /\ nth_error (s_verts e) (slot1 n) = Some (vert e (slot1 n)) /\ n = cornerNode 1 (slot1 n)).
  { intros e [x y] I N. unfold isNode in N. cbn [fst snd] in N. destruct (tri_distinct T I) as (a & b & c & V & _). unfold vert, nodeOn. rewrite V.
    destruct x as [|[|x]], y as [|[|y]]; try lia; unfold slot1; cbn; repeat split; auto. }
  intros u L. exists (fun e n => coefficient u (match zget (dm_l2g m) (s_index e) with Some ds => nth (slot1 n) ds (-1)%Z | None => (-1)%Z end)). split; [|split].
  - intros e i n I N. destruct (@nth_slot 1 i n N) as (NN & _). destruct (ON e n I NN) as (SL & NS & _ & NV & _).
    assert (i = slot1 n). { apply (proj1 (NoDup_nth_error (nodes 1)) (nodes_NoDup 1)); [apply nth_error_Some; congruence|congruence]. } subst i.
    destruct (P e I) as (ds & Z & LD & ZW & Q). rewrite Z. destruct (Q _ _ NV) as (d & ND & _). exists d. split; [exists ds; auto|]. split.
    + exists (repeat one (length (s_verts e))). split; [exact ZW|]. apply nth_error_repeat_. apply nth_error_Some. congruence.
    + now rewrite (nth_error_nth _ _ _ ND).
  - intros e n I N NA. destruct (ON e n I N) as (SL & NS & NO & NV & _). destruct (P e I) as (ds & Z & LD & ZW & Q). rewrite Z. destruct (Q _ _ NV) as (d & ND & [(-> & _)|(H1 & H2 & _)]).
    + now rewrite (nth_error_nth _ _ _ ND).
    + exfalso. apply NA. split; [now apply NO|exact H2].
  - intros e n e' n' I I' N N' ST SP. destruct (ON e n I N) as (SL & NS & NO & NV & CN). destruct (ON e' n' I' N') as (SL' & NS' & NO' & NV' & CN').
    assert (VE : vert e (slot1 n) = vert e' (slot1 n')). { rewrite CN, CN' in SP. apply same_cc in SP; auto using (tri_distinct T). }
    destruct (P e I) as (ds & Z & LD & ZW & Q). rewrite Z. destruct (Q _ _ NV) as (d & ND & X).
    destruct (P e' I') as (ds' & Z' & LD' & ZW' & Q'). rewrite Z'. destruct (Q' _ _ NV') as (d' & ND' & X').
    rewrite (nth_error_nth _ _ _ ND), (nth_error_nth _ _ _ ND'). f_equal. rewrite VE in X.
    destruct X as [(-> & X)|(X1 & X2 & X3 & X4)], X' as [(-> & X')|(Y1 & Y2 & Y3 & Y4)].
    + reflexivity.
    + exfalso. apply X. split; [assumption|]. intros S. apply (ST S). auto.
    + exfalso. apply X'. split; [assumption|]. intros S. apply (ST S). auto.
    + assert (NDV : NoDup vs). { clear -SS. induction SS as [|a l S IH FF]; constructor; [|exact IH]. intro I. rewrite Forall_forall in FF. specialize (FF _ I). lia. }
      assert (Z.to_nat d = Z.to_nat d'); [|lia]. apply (proj1 (NoDup_nth_error vs) NDV); [apply nth_error_Some; congruence|congruence].
Qed.
