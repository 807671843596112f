(** C109, C110: values of scalar functions. *)
From Coq Require Import Reals Lra Lia.
From Verif Require Import Base ComplexR SegModel SegSpec SegProofs AsmModel SpaceModel SpaceSpec SpaceProofs SpaceP1Proofs SpaceProps PolyModel PolySpec PolyProofs1 PolyProofs2 PolyProofs3 PolyProofs4 PolyProofs5 PolyProofs6 PolyProofs8 PolyProps
  VecModel VecSpec VecProofs VecProofs3 LagModel LagSpec LagProofs LagProofs2 LagProofs3 LagProofs4.
Set Implicit Arguments.
Unset Strict Implicit.
Local Open Scope R_scope.

(** evaluate works on every element; equal points have equal values (on strict segments: two points
    inside, or two points outside the segment); the value at the node of local dof i is the
    coefficient of its dof, 0 if it has none *)
Definition continuousFunctions (g : sgrid) (s : segment) (strict : bool) (p : nat) (m : dofmap Rsr) (evaluate : list R -> selt -> R * R -> option R) : Prop :=
  forall u, length u = globalDofCount m ->
  (forall e q, In e (g_elts g) -> exists x, evaluate u e q = Some x) /\
  (forall e q e' q', In e (g_elts g) -> In e' (g_elts g) -> (strict = true -> (holds s 0 (s_index e) <-> holds s 0 (s_index e'))) ->
     sameSurfacePoint e q e' q' -> evaluate u e q = evaluate u e' q') /\
  (forall e i n d, In e (g_elts g) -> nth_error (nodes p) i = Some n -> globalDof m (s_index e) i d ->
     evaluate u e (nodePoint p n) = Some (if (d <? 0)%Z then 0 else nth (Z.to_nat d) u 0)).
Lemma functions_of g s strict p m : gridOk g -> triangulation g -> (1 <= p)%nat -> consistent m ->
  (forall u, length u = globalDofCount m -> exists c, nodal g p m u c /\
    (forall e n, In e (g_elts g) -> isNode p n -> ~ (nodeOn s p e n /\ (strict = true -> holds s 0 (s_index e))) -> c e n = 0) /\
    (forall e n e' n', In e (g_elts g) -> In e' (g_elts g) -> isNode p n -> isNode p n' -> (strict = true -> (holds s 0 (s_index e) <-> holds s 0 (s_index e'))) ->
      samePoint p e n e' n' -> c e n = c e' n')) ->
  continuousFunctions g s strict p m (evaluatePk p m).
Proof.
  intros G T P C H u L. destruct (H u L) as (c & N & _ & SA). split; [|split].
  - intros e q I. eexists. exact (nodal_eval q N C L P I).
  - intros e q e' q' I I' ST SS. rewrite (nodal_eval q N C L P I), (nodal_eval q' N C L P I'). f_equal.
    apply (sum_same P (tri_distinct T I) (tri_distinct T I') SS). intros n n' J J' SP. now apply SA.
  - intros e i n d I NI D. rewrite (nodal_eval _ N C L P I). destruct (nth_slot _ _ NI) as (J & _). rewrite (nodal_value (c e) P J).
    destruct (N e i n I NI) as (d' & D' & _ & Q). assert (d' = d) by (destruct D as (? & ? & ?), D' as (? & ? & ?); congruence). subst d'. rewrite <- Q. unfold coefficient.
    destruct (Z.leb_spec 0 d), (Z.ltb_spec d 0); try lia; reflexivity.
Qed.
Theorem C109_polynomial_functions g s strict p : gridOk g -> triangulation g -> (1 <= p <= 10)%nat ->
  exists m, polyAssign (K := Rsr) g s strict (Z.of_nat p) = Some (m, Z.of_nat (flatLocalDofCount m)) /\
    continuousFunctions g s strict p m (evaluatePk p m).
Proof.
  intros G T B. destruct (@poly_nodal g s strict p G T B) as (m & E & C & H). exists m. split; [exact E|]. apply functions_of; auto; lia.
Qed.
Print Assumptions C109_polynomial_functions.
Theorem C109_linear_functions g s strict : gridOk g -> fits g s -> triangulation g ->
  exists m, p1Assign (K := Rsr) g s strict = Some m /\ continuousFunctions g s strict 1 m (evaluateP1 m).
Proof.
  intros G F T. destruct (@p1_nodal g s strict G F T) as (m & E & C & H). exists m. split; [exact E|].
  assert (X : continuousFunctions g s strict 1 m (evaluatePk 1 m)) by (apply functions_of; auto).
  intros u L. destruct (X u L) as (A & B & D). split; [|split].
  - intros e q I. rewrite eval_p1. auto.
  - intros. rewrite !eval_p1. auto.
  - intros. rewrite eval_p1. eauto.
Qed.
Print Assumptions C109_linear_functions.

(** C110: evaluate_on_vertices returns, for each vertex, the value of the function there: the value
    that evaluate returns for any element at that vertex; 0 for vertices without elements *)
Definition vertexValues (g : sgrid) (evaluate : selt -> R * R -> option R) (onElement : selt -> Prop) (vals : list R) : Prop :=
  length vals = Z.to_nat (g_n2 g) /\
  (forall e k v, In e (g_elts g) -> onElement e -> nth_error (s_verts e) k = Some v -> zget vals v = evaluate e (nth k [(0, 0); (1, 0); (0, 1)] (0, 0))) /\
  (forall v, (0 <= v < g_n2 g)%Z -> (forall e, In e (g_elts g) -> ~ hasVertex e v) -> zget vals v = Some 0).
Lemma vertices_of g s p m u : gridOk g -> triangulation g -> (1 <= p)%nat -> continuousFunctions g s false p m (evaluatePk p m) -> length u = globalDofCount m ->
  exists vals, evaluateOnVertices (evaluatePk p m u) g = Some vals /\ vertexValues g (evaluatePk p m u) (fun _ => True) vals.
Proof.
  intros G T P CF L. destruct (CF u L) as (A & B & _).
  set (F := fun v => match find (fun e => smem v (s_verts e)) (g_elts g) with
    | Some e => match find (fun k => (vert e k =? v)%Z) (seq 0 3) with Some k => match evaluatePk p m u e (cornerPoint k) with Some x => x | None => 0 end | None => 0 end
    | None => 0 end).
  assert (VK : forall e k, In e (g_elts g) -> (k < 3)%nat -> In (vert e k) (s_verts e)).
  { intros e k I K. destruct (tri_distinct T I) as (a & b & c & V & _). unfold vert. rewrite V. destruct k as [|[|[|]]]; [| | |lia]; cbn; auto. }
  assert (EV : forall e k, In e (g_elts g) -> (k < 3)%nat -> evaluatePk p m u e (cornerPoint k) = Some (F (vert e k))).
  { intros e k I K. unfold F. destruct (find (fun x => smem (vert e k) (s_verts x)) (g_elts g)) as [e'|] eqn:Q.
    - apply find_some in Q as (I' & Q). apply smem_In in Q.
      destruct (find (fun j => (vert e' j =? vert e k)%Z) (seq 0 3)) as [k'|] eqn:Q'.
      + apply find_some in Q' as (K' & Q'). apply in_seq in K'. apply Z.eqb_eq in Q'.
        rewrite (B e (cornerPoint k) e' (cornerPoint k') I I' ltac:(discriminate)).
        * destruct (A e' (cornerPoint k') I') as (x & ->). reflexivity.
        * destruct (tri_distinct T I) as (a & b & c & V & ND). destruct (tri_distinct T I') as (a' & b' & c' & V' & ND').
          assert (X : forall x j a b c v, s_verts x = [a; b; c] -> NoDup [a; b; c] -> (j < 3)%nat -> shareOf x (cornerPoint j) v = if (vert x j =? v)%Z then 1 else 0).
          { clear. intros x j a b c v V ND L. rewrite (share_eq _ _ V). apply (distinct_ne (p := 1) ltac:(lia)) in ND. unfold vert. rewrite V.
            destruct j as [|[|[|]]]; [| | |lia]; cbn [cornerPoint nth fst snd]; destruct (Z.eqb_spec a v), (Z.eqb_spec b v), (Z.eqb_spec c v); try lia; ring. }
          intros v. rewrite (X e k a b c v V ND K), (X e' k' a' b' c' v V' ND') by lia. now rewrite Q'.
      + exfalso. destruct (tri_distinct T I') as (a' & b' & c' & V' & ND'). apply find_none with (x := 0%nat) in Q' as Q0; [|cbn; auto]. apply find_none with (x := 1%nat) in Q' as Q1; [|cbn; auto].
        apply find_none with (x := 2%nat) in Q' as Q2; [|cbn; auto]. apply Z.eqb_neq in Q0, Q1, Q2. unfold vert at 1 in Q0. unfold vert at 1 in Q1. unfold vert at 1 in Q2. rewrite V' in *. cbn [nth In] in *. intuition congruence.
    - exfalso. apply find_none with (x := e) in Q; [|exact I]. apply smem_false in Q. apply Q. auto. }
  destruct (write_grid T G EV) as (vals & E & LV & W & Z). exists vals. split; [exact E|]. split; [exact LV|]. split; [|exact Z].
  intros e k v I _ N. assert (K : (k < 3)%nat). { destruct (tri_distinct T I) as (a & b & c & V & _). assert (k < length (s_verts e))%nat by (apply nth_error_Some; congruence). rewrite V in *. cbn in *. lia. }
  assert (v = vert e k) by (unfold vert; symmetry; now apply nth_error_nth). subst v. rewrite (W e k I K). symmetry.
  replace (nth k [(0, 0); (1, 0); (0, 1)] (0, 0)) with (cornerPoint k) by (destruct k as [|[|[|]]]; [| | |lia]; reflexivity). auto.
Qed.
Theorem C110_vertex_values_partial g s : gridOk g -> triangulation g ->
  (forall p, (1 <= p <= 10)%nat -> exists m, polyAssign (K := Rsr) g s false (Z.of_nat p) = Some (m, Z.of_nat (flatLocalDofCount m)) /\
     forall u, length u = globalDofCount m -> exists vals, evaluateOnVertices (evaluatePk p m u) g = Some vals /\ vertexValues g (evaluatePk p m u) (fun _ => True) vals) /\
  (fits g s -> exists m, p1Assign (K := Rsr) g s false = Some m /\
     forall u, length u = globalDofCount m -> exists vals, evaluateOnVertices (evaluateP1 m u) g = Some vals /\ vertexValues g (evaluateP1 m u) (fun _ => True) vals).
Proof.
  intros G T. split.
  - intros p B. destruct (@C109_polynomial_functions g s false p G T B) as (m & E & CF). exists m. split; [exact E|]. intros u L. apply (@vertices_of g s p m u); auto; lia.
  - intros F. destruct (@p1_nodal g s false G F T) as (m & E & C & H). exists m. split; [exact E|]. intros u L.
    assert (X : continuousFunctions g s false 1 m (evaluatePk 1 m)) by (apply functions_of; auto).
    destruct (@vertices_of g s 1 m u G T ltac:(lia) X L) as (vals & EV & VV). exists vals.
    assert (Q : forall es vs, ofold (verticesOfElement (evaluateP1 m u)) es vs = ofold (verticesOfElement (evaluatePk 1 m u)) es vs).
    { induction es as [|e es IH]; intros vs; [reflexivity|]. cbn [ofold]. unfold verticesOfElement at 1 3. cbn [seq ofold]. rewrite !eval_p1.
      match goal with |- obind ?a _ = obind ?b _ => destruct b end; [apply IH|reflexivity]. }
    split; [unfold evaluateOnVertices; rewrite Q; exact EV|]. destruct VV as (V1 & V2 & V3). split; [exact V1|]. split; [|exact V3]. intros. rewrite eval_p1. eauto.
Qed.
Print Assumptions C110_vertex_values_partial.
(** strictly_on_segment: an element outside the segment that comes later overwrites the values *)
Definition strictMap : dofmap Rsr := @DofMap Rsr [[0;1;2]%Z; [-1;-1;-1]%Z] [[1;1;1]; [1;1;1]] [[(0%Z,0%nat)]; [(0%Z,1%nat)]; [(0%Z,2%nat)]] [(0%Z,0%nat); (0%Z,1%nat); (0%Z,2%nat)].
Theorem C110_vertex_values_refuted :
  exists g s m u vals, gridOk g /\ fits g s /\ triangulation g /\ p1Assign (K := Rsr) g s true = Some m /\ length u = globalDofCount m /\
    evaluateOnVertices (evaluateP1 m u) g = Some vals /\ ~ vertexValues g (evaluateP1 m u) (fun e => holds s 0 (s_index e)) vals.
Proof.
  assert (FT : fits twoTriangles (closedDomain twoTriangles [0%Z])).
  { exact (@segmentOf_fits twoTriangles (Some [0%Z]) true twoTriangles_ok). }
  exists twoTriangles, (closedDomain twoTriangles [0%Z]), strictMap, [1; 1; 1]. eexists.
  split; [exact twoTriangles_ok|]. split; [exact FT|]. split; [exact twoTriangles_triangulation|]. split; [reflexivity|]. split; [reflexivity|].
  split; [cbn; reflexivity|]. intros (_ & V & _). specialize (V (SElt 0 0 [(0, [0;1]); (1, [0;2]); (2, [1;2])] [0;1;2])%Z 1%nat 1%Z ltac:(now left) ltac:(reflexivity) ltac:(reflexivity)).
  cbn in V. injection V as V. lra.
Qed.
Print Assumptions C110_vertex_values_refuted.
(** a point of the common edge, seen from both triangles *)
Example c109_case : let e := SElt 0 0 [(0, [0;1]); (1, [0;2]); (2, [1;2])]%Z [0;1;2]%Z in let e' := SElt 1 1 [(3, [1;3]); (2, [1;2]); (4, [3;2])]%Z [1;3;2]%Z in
  In e (g_elts twoTriangles) /\ In e' (g_elts twoTriangles) /\ forall t, sameSurfacePoint e (t, 1 - t) e' (0, 1 - t).
Proof.
  cbv zeta. split; [now left|]. split; [now right; left|]. intros t v. unfold shareOf, baryR. cbn [s_verts combine map fold_right fst snd].
  destruct (0 =? v)%Z eqn:E0, (1 =? v)%Z eqn:E1, (2 =? v)%Z eqn:E2, (3 =? v)%Z eqn:E3; try (rewrite Z.eqb_eq in *; lia); ring.
Qed.
(** order 2: the value at the midpoint of the edge *)
Example c109_midpoint : pkFunction 2 (1, 1)%nat (1 / 2, 1 / 2) = 1 /\ pkFunction 2 (1, 1)%nat (1, 0) = 0 /\ pkFunction 2 (0, 1)%nat (0, 1 / 4) = 3 / 4.
Proof. unfold pkFunction, loopProduct, pkPos. cbn [seq fold_left Nat.add Nat.sub INR]. repeat split; field. Qed.
