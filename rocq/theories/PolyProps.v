From Coq Require Import Permutation Sorted.
From Verif Require Import Base SegModel SegSpec SegProofs AsmModel AsmSpec SpaceModel SpaceSpec SpaceProofs SpaceP1Proofs RangeProofs PolyModel PolySpec PolyProofs1 PolyProofs2 PolyProofs3 PolyProofs4 PolyProofs5 PolyProofs6 PolyProofs7 PolyProofs8.
Set Implicit Arguments.
Unset Strict Implicit.
Local Open Scope Z_scope.

Lemma and_cong (A B C D : Prop) : (A <-> C) -> (B <-> D) -> (A /\ B <-> C /\ D).
Proof. tauto. Qed.

(** C101.  Continuous piecewise polynomials of order p.  Local dof i of a triangle sits at
    Lagrange node number i. *)
Theorem C101_continuous_polynomial_dofs (K : star_ring) g s strict p : gridOk g -> triangulation g -> (1 <= p <= 10)%nat ->
  exists m : dofmap K, polyAssign g s strict (Z.of_nat p) = Some (m, Z.of_nat (flatLocalDofCount m)) /\
    consistent m /\ flatEnumerates m /\
    (* the local dofs of an element are its nodes *)
    (forall e i, In e (g_elts g) -> (exists d, globalDof m (s_index e) i d) <-> (i < length (nodes p))%nat) /\
    (* weights; which local dofs are active *)
    (forall e i n d, In e (g_elts g) -> nth_error (nodes p) i = Some n -> globalDof m (s_index e) i d ->
       dofWeight m (s_index e) i one /\
       (0 <= d <-> nodeOn s p e n /\ (strict = true -> holds s 0 (s_index e)))) /\
    (* continuity: active local dofs have the same dof iff they sit at the same point *)
    (forall e i n d e' i' n' d', In e (g_elts g) -> In e' (g_elts g) ->
       nth_error (nodes p) i = Some n -> nth_error (nodes p) i' = Some n' ->
       globalDof m (s_index e) i d -> globalDof m (s_index e') i' d' -> 0 <= d -> 0 <= d' ->
       (d = d' <-> samePoint p e n e' n')) /\
    (* no dof without local dofs *)
    (noIsolatedVertex g -> noIsolatedEdge g -> forall d, (d < globalDofCount m)%nat -> exists x, attachedTo m d x).
Proof.
  intros G T B. destruct (@poly_core K g s strict p G T B) as (m & tab & E & (C & FE & GD & W & R) & AC & SA & ON).
  exists m. split; [exact E|]. split; [exact C|]. split; [exact FE|].
  assert (IO : indicesOk (g_elts g)) by now apply gridOk_indices.
  assert (LOC : forall e i n d, In e (g_elts g) -> nth_error (nodes p) i = Some n -> globalDof m (s_index e) i d -> d = val (tab e n)).
  { intros e i n d I N H. apply GD in H as (e' & n' & I' & Q & N' & ->). assert (e' = e) by (eapply indices_inj; eauto). subst e'. congruence. }
  assert (AV : forall e n, In e (g_elts g) -> isNode p n -> 0 <= val (tab e n) -> tab e n = Some (val (tab e n))).
  { intros e n I N. destruct (tab e n); cbn [val]; [reflexivity|lia]. }
  split; [|split; [|split]].
  - intros e i I. split.
    + intros (d & H). apply GD in H as (e' & n & _ & _ & N & _). apply nth_error_Some. congruence.
    + intros L. destruct (nth_error (nodes p) i) as [n|] eqn:N; [|apply nth_error_None in N; lia]. eexists. apply GD. exists e, n. eauto.
  - intros e i n d I N H. assert (J : isNode p n) by (eapply nth_slot; eauto). rewrite (LOC _ _ _ _ I N H). split; [apply W; [exact I|]; apply nth_error_Some; congruence|].
    rewrite <- (AC e n I J). split.
    + intros P. eexists. now apply AV.
    + intros (d' & Q). rewrite Q. cbn [val]. now apply (R e n d' I J).
  - intros e i n d e' i' n' d' I I' N N' H H' P P'. pose proof (LOC _ _ _ _ I N H) as Q. pose proof (LOC _ _ _ _ I' N' H') as Q'.
    assert (J : isNode p n) by (eapply nth_slot; eauto). assert (J' : isNode p n') by (eapply nth_slot; eauto).
    subst d d'. apply SA; auto.
  - intros IV IE d L. destruct (ON (fun _ => IV) (fun _ _ => IE) d L) as (e & n & I & J & Q). destruct C as (_ & _ & C). destruct (C d L) as (l & A & _ & M).
    exists (s_index e, Z.to_nat (slot p n)). exists l. split; [exact A|]. apply M. apply GD. exists e, n. split; [exact I|]. split; [reflexivity|]. split; [apply (slot_nth J)|]. now rewrite Q.
Qed.
Print Assumptions C101_continuous_polynomial_dofs.
(** other orders are refused *)
Theorem C101_order_refused (K : star_ring) g s strict p : ~ (1 <= p <= 10) -> polyAssign (K := K) g s strict p = None.
Proof. intros H. unfold polyAssign. destruct (Z.leb_spec 1 p), (Z.leb_spec p 10); cbn; try reflexivity. lia. Qed.
Print Assumptions C101_order_refused.

(** C102.  Discontinuous piecewise polynomials. *)
Theorem C102_discontinuous_polynomial_dofs (K : star_ring) g s ref elem p : gridOk g -> triangulation g -> (p <= 10)%nat -> ref = true \/ elem = true ->
  exists m : dofmap K, polyDPAssign g s ref elem (Z.of_nat p) = Some (m, Z.of_nat (flatLocalDofCount m)) /\
    consistent m /\ flatEnumerates m /\ flatLocalDofCount m = globalDofCount m /\
    (* every dof belongs to exactly one local dof *)
    (forall d l, nth_error (dm_g2l m) d = Some l -> length l = 1%nat) /\
    (forall e i, In e (g_elts g) -> (exists d, globalDof m (s_index e) i d) <-> (i < length (nodes p))%nat) /\
    (forall e i n d, In e (g_elts g) -> nth_error (nodes p) i = Some n -> globalDof m (s_index e) i d ->
       dofWeight m (s_index e) i one /\
       (0 <= d <-> if (p =? 0)%nat then holds s 0 (s_index e)
                   else (elem = true -> holds s 0 (s_index e)) /\ (ref = true -> nodeOn s p e n))).
Proof.
  intros G T B M. assert (RE : (ref || elem) = true) by (destruct M as [-> | ->]; [reflexivity|apply orb_true_r]).
  destruct (@dp_core K g s ref elem p G T B RE) as (m & tab & E & (C & FE & GD & W & R) & G2L & CNT & AC & _).
  exists m. split; [exact E|]. split; [exact C|]. split; [exact FE|]. split; [exact CNT|].
  assert (IO : indicesOk (g_elts g)) by now apply gridOk_indices.
  split; [|split].
  - intros d l H. rewrite G2L in H. apply nth_error_In in H. apply in_allDofs in H as (e & n & _ & _ & _ & ->); [reflexivity|]. apply in_orderDP.
  - intros e i I. split.
    + intros (d & H). apply GD in H as (e' & n & _ & _ & N & _). apply nth_error_Some. congruence.
    + intros L. destruct (nth_error (nodes p) i) as [n|] eqn:N; [|apply nth_error_None in N; lia]. eexists. apply GD. exists e, n. eauto.
  - intros e i n d I N H. apply GD in H as (e' & n' & I' & Q & N' & ->). assert (e' = e) by (eapply indices_inj; eauto). subst e'. assert (n' = n) by congruence. subst n'.
    assert (J : isNode p n) by (eapply nth_slot; eauto). split; [apply W; [exact I|]; apply nth_error_Some; congruence|].
    assert (V : 0 <= val (tab e n) <-> actDP s ref elem p e n = true).
    { rewrite <- (AC e n I J). split; [destruct (tab e n); cbn [val]; [eauto|lia]|]. intros (d & Q2). rewrite Q2. cbn [val]. now apply (R e n d I J). }
    rewrite V. unfold actDP. destruct (p =? 0)%nat; [apply inSegP; lia|]. rewrite nodeOn_classify.
    assert (X : forall (b : bool) (P : Prop) (c : bool), (c = true <-> P) -> (negb b || c = true <-> (b = true -> P))) by (intros [] P c Q2; cbn; intuition).
    destruct (classify p n) as [k|k l|].
    + rewrite andb_true_iff. apply and_cong; apply X; apply inSegP; lia.
    + rewrite andb_true_iff. apply and_cong; apply X; apply inSegP; lia.
    + rewrite inSegP by lia. split; [auto|]. intros (H1 & H2). destruct M as [-> | ->]; auto.
Qed.
Print Assumptions C102_discontinuous_polynomial_dofs.
(** without a dof mode, or with another order, the constructor throws *)
Theorem C102_refused (K : star_ring) g s ref elem p : (ref = false /\ elem = false) \/ ~ (0 <= p <= 10) -> polyDPAssign (K := K) g s ref elem p = None.
Proof.
  intros [(-> & ->)|H]; [reflexivity|]. unfold polyDPAssign. destruct (Z.leb_spec 0 p), (Z.leb_spec p 10); cbn; rewrite ?orb_true_r; try reflexivity. lia.
Qed.
Print Assumptions C102_refused.

(** C103.  Python: a continuous space and its discontinuous_space (= super_space), for every
    choice of domains, closed and strictly_on_segment: both exist and every function of the
    first is a function of the second. *)
Theorem C103_super_space_contains (K : star_ring) g p domains closed strict : gridOk g -> triangulation g -> (1 <= p <= 10)%nat ->
  exists m M : dofmap K, continuousPolynomialSpace g (Z.of_nat p) domains closed strict = Some (m, M) /\ consistent m /\ consistent M /\
    (forall d l, nth_error (dm_g2l M) d = Some l -> length l = 1%nat) /\ subspaceOf m M.
Proof. exact (@superSpace_core K g p domains closed strict). Qed.
Print Assumptions C103_super_space_contains.

(** ---- C104: flat local dofs of the discontinuous spaces ---- *)
Lemma sorted_unique (l l' : list ldof) : StronglySorted ldofLt l -> StronglySorted ldofLt l' -> (forall x, In x l <-> In x l') -> l = l'.
Proof.
  intros S. revert l'. induction S as [|a l S IH F]; intros l' S' M.
  - destruct l' as [|b l']; [reflexivity|]. exfalso. now apply (proj2 (M b) (or_introl eq_refl)).
  - destruct S' as [|b l' S' F']; [exfalso; now apply (proj1 (M a) (or_introl eq_refl))|]. rewrite Forall_forall in F, F'.
    assert (IR : forall x, ~ ldofLt x x) by (intros x H; unfold ldofLt in H; lia).
    assert (AS : forall x y, ldofLt x y -> ~ ldofLt y x) by (intros x y H1 H2; unfold ldofLt in *; lia).
    assert (a = b).
    { destruct (proj1 (M a) (or_introl eq_refl)) as [Q|Q]; [now symmetry|]. destruct (proj2 (M b) (or_introl eq_refl)) as [Q'|Q']; [assumption|].
      exfalso. exact (AS _ _ (F _ Q') (F' _ Q)). }
    subst b. f_equal. apply IH; [assumption|]. intros x. split; intros Ix.
    + destruct (proj1 (M x) (or_intror Ix)) as [<-|]; [exfalso; exact (IR _ (F _ Ix))|assumption].
    + destruct (proj2 (M x) (or_intror Ix)) as [<-|]; [exfalso; exact (IR _ (F' _ Ix))|assumption].
Qed.
(** For orders 0 and 1 flat local dof d is the local dof of global dof d (positions, bounding boxes
    and normals of flat local dof d are computed as those of global dof d). *)
Theorem C104_flat_dofs_in_global_order_partial (K : star_ring) g s ref elem p : gridOk g -> triangulation g -> inIndexOrder g -> (p <= 1)%nat -> ref = true \/ elem = true ->
  exists m : dofmap K, polyDPAssign g s ref elem (Z.of_nat p) = Some (m, Z.of_nat (flatLocalDofCount m)) /\ dm_flat m = concat (dm_g2l m).
Proof.
  intros G T IX B M. assert (RE : (ref || elem) = true) by (destruct M as [-> | ->]; [reflexivity|apply orb_true_r]).
  destruct (@dp_core K g s ref elem p G T ltac:(lia) RE) as (m & tab & E & (C & (SS & FE) & GD & W & R) & G2L & CNT & AC & _).
  exists m. split; [exact E|]. apply sorted_unique; [exact SS| |].
  - rewrite G2L. set (act := actDP s ref elem p).
    assert (CC : forall es, concat (allDofs p act (orderDP p) es) = flat_map (fun e => map (fun n => (s_index e, Z.to_nat (slot p n))) (filter (act e) (orderDP p))) es).
    { induction es as [|e es IH]; [reflexivity|]. cbn [allDofs flat_map]. unfold allDofs in IH. rewrite concat_app, IH. f_equal. generalize (filter (act e) (orderDP p)). intros l. induction l as [|n l IHl]; [reflexivity|]. cbn. now rewrite IHl. }
    rewrite CC. clear -IX B G.
    assert (ES : StronglySorted (fun e e' : selt => s_index e < s_index e') (g_elts g)).
    { unfold inIndexOrder in IX. pose proof (zrange_sorted (g_n0 g)) as Z. rewrite <- IX in Z. apply Sorted_StronglySorted in Z; [|intros x y z; lia].
      clear -Z. remember (map s_index (g_elts g)) as l eqn:Q. revert Q. generalize (g_elts g) as es. induction Z as [|a l S IH F]; intros es Q; destruct es as [|e es]; try discriminate; constructor.
      - apply IH. now injection Q.
      - injection Q as -> ->. rewrite Forall_forall in *. intros x I. apply F. now apply in_map. }
    assert (OS : forall e, StronglySorted (fun n n' => (Z.to_nat (slot p n) < Z.to_nat (slot p n'))%nat) (filter (act e) (orderDP p))).
    { intros e. assert (O : StronglySorted (fun n n' => (Z.to_nat (slot p n) < Z.to_nat (slot p n'))%nat) (orderDP p)).
      { destruct p as [|[|p]]; [| |lia]; cbn; repeat constructor. }
      generalize dependent (orderDP p). intros o O. clear -O. induction O as [|a l S IH F]; cbn; [constructor|]. destruct (act e a); [|exact IH]. constructor; [exact IH|].
      rewrite Forall_forall in *. intros x I. apply filter_In in I as (I & _). now apply F. }
    induction ES as [|e es ES IH F]; cbn [flat_map]; [constructor|].
    assert (APP : forall l l', StronglySorted ldofLt l -> StronglySorted ldofLt l' -> (forall x y, In x l -> In y l' -> ldofLt x y) -> StronglySorted ldofLt (l ++ l')).
    { clear. induction l as [|a l IH]; intros l' S S' H; [exact S'|]. cbn. inversion S as [|? ? S1 F1]; subst. constructor.
      - apply IH; auto. intros; apply H; [now right|assumption].
      - rewrite Forall_forall in *. intros x I. apply in_app_iff in I as [I|I]; [now apply F1|apply H; [now left|exact I]]. }
    apply APP; [|exact IH|].
    + generalize (OS e). generalize (filter (act e) (orderDP p)). intros o O. induction O as [|a l S IHo Fo]; cbn; constructor; [exact IHo|]. rewrite Forall_forall in *.
      intros x I. apply in_map_iff in I as (n & <- & I). right. cbn. split; [reflexivity|]. now apply Fo.
    + intros x y Ix Iy. apply in_map_iff in Ix as (n & <- & _). apply in_flat_map in Iy as (e' & I' & Iy). apply in_map_iff in Iy as (n' & <- & _). left. cbn. rewrite Forall_forall in F. now apply F.
  - intros (x, i). rewrite FE, in_concat. destruct C as (C1 & _ & C3). split.
    + intros (d & H & P). destruct (C1 _ _ _ H) as [?|Q]; [lia|]. destruct (C3 (Z.to_nat d)) as (l & A & _ & Ml); [lia|]. rewrite Z2Nat.id in Ml by lia. exists l. split; [eapply nth_error_In; eauto|now apply Ml].
    + intros (l & I & J). apply In_nth_error in I as (d & A). destruct (C3 d) as (l' & A' & _ & Ml); [unfold globalDofCount; apply nth_error_Some; congruence|].
      assert (l' = l) by congruence. subst l'. exists (Z.of_nat d). split; [now apply Ml|lia].
Qed.
Print Assumptions C104_flat_dofs_in_global_order_partial.

(** ---- concrete grids ---- *)
Definition twoTriangles : sgrid := SGrid
  [ SElt 0 0 [(0, [0;1]); (1, [0;2]); (2, [1;2])] [0;1;2];
    SElt 1 1 [(3, [1;3]); (2, [1;2]); (4, [3;2])] [1;3;2] ] 5 4.
Lemma twoTriangles_ok : gridOk twoTriangles.
Proof.
  split; [cbn; repeat constructor; cbn; intuition discriminate|].
  repeat split; intros; repeat match goal with
   | H : In _ (g_elts _) |- _ => cbn in H
   | H : _ \/ _ |- _ => destruct H
   | H : False |- _ => destruct H
   | H : _ = ?e |- _ => subst e
   | H : hasFacet _ _ |- _ => unfold hasFacet in H; cbn in H
   | H : hasVertex _ _ |- _ => unfold hasVertex in H; cbn in H
   | H : In _ (s_facets _) |- _ => cbn in H
   | H : In _ (snd _) |- _ => cbn in H
   | |- hasVertex _ _ => unfold hasVertex; cbn
   end; cbn; try lia; auto 6.
Qed.
Lemma twoTriangles_triangulation : triangulation twoTriangles.
Proof.
  split; [|split].
  - intros e [<-|[<-|[]]]; do 6 eexists; (split; [reflexivity|]); (split; [repeat constructor; cbn; intuition discriminate|reflexivity]).
  - intros e e' f f' I I' J J'.
    set (L := [(0, [0;1]); (1, [0;2]); (2, [1;2]); (3, [1;3]); (4, [3;2])]).
    assert (F : In f L) by (destruct I as [<-|[<-|[]]]; cbn in J |- *; tauto).
    assert (F' : In f' L) by (destruct I' as [<-|[<-|[]]]; cbn in J' |- *; tauto).
    assert (D : forall a b, In a L -> In b L -> fst a = fst b \/ exists v, (In v (snd a) /\ ~ In v (snd b)) \/ (In v (snd b) /\ ~ In v (snd a))).
    { assert (M : forall v l, smem v l = true -> In v l) by (intros v l; apply smem_In). assert (N : forall v l, smem v l = false -> ~ In v l) by (intros v l; apply smem_false).
      intros a b [<-|[<-|[<-|[<-|[<-|[]]]]]] [<-|[<-|[<-|[<-|[<-|[]]]]]]; cbn [fst snd]; try (left; reflexivity); right;
      first [ exists 0; left; split; [apply M; reflexivity|apply N; reflexivity] | exists 1; left; split; [apply M; reflexivity|apply N; reflexivity]
            | exists 2; left; split; [apply M; reflexivity|apply N; reflexivity] | exists 3; left; split; [apply M; reflexivity|apply N; reflexivity] ]. }
    assert (U : forall a b, In a L -> In b L -> fst a = fst b -> a = b) by (intros a b [<-|[<-|[<-|[<-|[<-|[]]]]]] [<-|[<-|[<-|[<-|[<-|[]]]]]] Q; cbn in Q; try discriminate; reflexivity).
    split.
    + intros E v. now rewrite (U _ _ F F' E).
    + intros E. destruct (D _ _ F F') as [Q|(v & [(A & B)|(A & B)])]; [exact Q|exfalso; apply B, E, A|exfalso; apply B, E, A].
  - intros e e' [<-|[<-|[]]] [<-|[<-|[]]] H; try reflexivity; exfalso; [assert (X : In 0 [1;3;2]) by (apply (H 0); now left); apply smem_In in X; discriminate|assert (X : In 0 [1;3;2]) by (apply (H 0); now left); apply smem_In in X; discriminate].
Qed.
(** order 2: 9 dofs; the shared edge has its midpoint dof shared *)
Example p2_dofs : option_map (fun r => (dm_l2g (fst r), snd r)) (polyAssign (K := Zsr) twoTriangles (wholeGrid twoTriangles) false 2) =
  Some ([[0; 4; 1; 5; 6; 2]; [1; 7; 3; 6; 8; 2]], 12).
Proof. vm_compute. reflexivity. Qed.
(** order 3, domain 1 only, strict: the shared edge is traversed in both directions alike *)
Example p3_dofs : option_map (fun r => dm_l2g (fst r)) (polyAssign (K := Zsr) twoTriangles (closedDomain twoTriangles [1]) true 3) =
  Some [[-1;-1;-1;-1;-1;-1;-1;-1;-1;-1]; [0; 5; 6; 2; 3; 9; 8; 4; 7; 1]].
Proof. vm_compute. reflexivity. Qed.
Example c101_case : exists e e' n n', In e (g_elts twoTriangles) /\ In e' (g_elts twoTriangles) /\ e <> e' /\ samePoint 2 e n e' n' /\ nodeOn (wholeGrid twoTriangles) 2 e n.
Proof.
  exists (SElt 0 0 [(0, [0;1]); (1, [0;2]); (2, [1;2])] [0;1;2]), (SElt 1 1 [(3, [1;3]); (2, [1;2]); (4, [3;2])] [1;3;2]), (1, 1)%nat, (0, 1)%nat.
  split; [now left|]. split; [right; now left|]. split; [discriminate|]. split; [|reflexivity]. intros v. unfold weightAt, bary. cbn [combine s_verts map fst snd].
  destruct (Z.eqb_spec 0 v), (Z.eqb_spec 1 v), (Z.eqb_spec 2 v), (Z.eqb_spec 3 v); try lia; reflexivity.
Qed.
Example dp2_dofs : option_map (fun r => (dm_l2g (fst r), snd r)) (polyDPAssign (K := Zsr) twoTriangles (openDomain twoTriangles [1]) false true 2) =
  Some ([[-1;-1;-1;-1;-1;-1]; [0; 3; 1; 4; 5; 2]], 6).
Proof. vm_compute. reflexivity. Qed.
(** domain 1 without its boundary: the bubble of order 3 remains *)
Example super_example : option_map (fun r => (dm_l2g (fst r), dm_l2g (snd r))) (continuousPolynomialSpace (K := Zsr) twoTriangles 3 (Some [1]) false false) =
  Some ([[-1;-1;-1;-1;-1;-1;-1;-1;-1;-1]; [-1;-1;-1;-1;-1;0;-1;-1;-1;-1]],
        [[-1;-1;-1;-1;-1;-1;-1;-1;-1;-1]; [0;3;4;1;5;9;7;6;8;2]]).
Proof. vm_compute. reflexivity. Qed.

(** C104 refuted for order 2: flat local dof 1 is local dof 1, global dof 1 is local dof 2 (a corner) *)
Theorem C104_flat_dofs_in_global_order_refuted :
  exists g s, gridOk g /\ triangulation g /\ inIndexOrder g /\
  exists m : dofmap Zsr, polyDPAssign g s true false 2 = Some (m, Z.of_nat (flatLocalDofCount m)) /\
    nth_error (dm_flat m) 1 = Some (0, 1%nat) /\ nth_error (dm_g2l m) 1 = Some [(0, 2%nat)] /\ dm_flat m <> concat (dm_g2l m).
Proof.
  exists twoTriangles, (wholeGrid twoTriangles). split; [exact twoTriangles_ok|]. split; [exact twoTriangles_triangulation|]. split; [reflexivity|].
  exists (DofMap (K := Zsr) [[0; 3; 1; 4; 5; 2]; [6; 9; 7; 10; 11; 8]] [[1; 1; 1; 1; 1; 1]; [1; 1; 1; 1; 1; 1]]
     [[(0, 0%nat)]; [(0, 2%nat)]; [(0, 5%nat)]; [(0, 1%nat)]; [(0, 3%nat)]; [(0, 4%nat)];
      [(1, 0%nat)]; [(1, 2%nat)]; [(1, 5%nat)]; [(1, 1%nat)]; [(1, 3%nat)]; [(1, 4%nat)]]
     [(0, 0%nat); (0, 1%nat); (0, 2%nat); (0, 3%nat); (0, 4%nat); (0, 5%nat); (1, 0%nat); (1, 1%nat); (1, 2%nat); (1, 3%nat); (1, 4%nat); (1, 5%nat)]).
  split; [vm_compute; reflexivity|]. split; [reflexivity|]. split; [reflexivity|]. vm_compute. discriminate.
Qed.
Print Assumptions C104_flat_dofs_in_global_order_refuted.
