From Coq Require Import Reals Lra Lia Permutation.
From Verif Require Import Base ComplexR SegModel SegSpec SegProofs AsmModel SpaceModel SpaceSpec SpaceProofs SpaceP1Proofs PolyModel PolySpec PolyProofs1 PolyProofs2 PolyProofs3 PolyProofs4 PolyProofs5 PolyProofs6
  VecModel VecSpec VecProofs VecProofs3 LagModel LagSpec LagProofs LagProofs2 LagProofs3.
Set Implicit Arguments.
Unset Strict Implicit.
Local Open Scope R_scope.

Lemma corner_node p k : (1 <= p)%nat -> (k < 3)%nat -> cornerPoint k = nodePoint p (cornerNode p k) /\ isNode p (cornerNode p k).
Proof.
  intros P K. assert (INR p <> 0) by (apply not_0_INR; lia). unfold nodePoint, isNode.
  destruct k as [|[|[|]]]; [| | |lia]; cbn [cornerPoint cornerNode fst snd INR]; (split; [f_equal; field; assumption|lia]).
Qed.

(** writing vertex values *)
Section Vertices.
Variables (g : sgrid) (eval : selt -> R * R -> option R) (F : Z -> R).
Hypotheses (TR : triangulation g) (G : gridOk g).
Hypothesis EV : forall e k, In e (g_elts g) -> (k < 3)%nat -> eval e (cornerPoint k) = Some (F (vert e k)).
Lemma write_element e vals : In e (g_elts g) -> length vals = Z.to_nat (g_n2 g) ->
  exists vals', verticesOfElement eval vals e = Some vals' /\ length vals' = length vals /\
    forall v, zget vals' v = if smem v (s_verts e) then Some (F v) else zget vals v.
Proof.
  intros I L. destruct (tri_distinct TR I) as (a & b & c & V & ND).
  assert (RG : forall v, In v (s_verts e) -> (0 <= v < Z.of_nat (length vals))%Z).
  { intros v J. destruct G as (_ & _ & _ & R & _). specialize (R e v I J). rewrite L. lia. }
  unfold verticesOfElement. cbn [seq ofold].
  rewrite (EV I (k := 0%nat)) by lia. cbn [obind]. unfold vert at 1. rewrite V. cbn [nth nth_error obind].
  destruct (@zset_Some R vals a (F a)) as (v1 & E1); [apply RG; rewrite V; now left|]. rewrite E1. cbn [obind]. assert (L1 := zset_length _ _ _ E1).
  rewrite (EV I (k := 1%nat)) by lia. cbn [obind]. unfold vert at 1. rewrite V. cbn [nth nth_error obind].
  destruct (@zset_Some R v1 b (F b)) as (v2 & E2); [rewrite L1; apply RG; rewrite V; now right; left|]. rewrite E2. cbn [obind]. assert (L2 := zset_length _ _ _ E2).
  rewrite (EV I (k := 2%nat)) by lia. cbn [obind]. unfold vert at 1. rewrite V. cbn [nth nth_error obind].
  destruct (@zset_Some R v2 c (F c)) as (v3 & E3); [rewrite L2, L1; apply RG; rewrite V; now right; right; left|]. rewrite E3. cbn [obind]. assert (L3 := zset_length _ _ _ E3).
  exists v3. split; [reflexivity|]. split; [congruence|]. intros v. rewrite (zset_get _ _ _ v E3), (zset_get _ _ _ v E2), (zset_get _ _ _ v E1).
  unfold smem. cbn [existsb]. destruct (Z.eqb_spec v c) as [->|]; [now rewrite !orb_true_r|]. destruct (Z.eqb_spec v b) as [->|]; [now rewrite !orb_true_r|]. destruct (Z.eqb_spec v a) as [->|]; reflexivity.
Qed.
Lemma write_all es : (forall e, In e es -> In e (g_elts g)) -> forall vals, length vals = Z.to_nat (g_n2 g) ->
  exists vals', ofold (verticesOfElement eval) es vals = Some vals' /\ length vals' = length vals /\
    forall v, zget vals' v = if existsb (fun e => smem v (s_verts e)) es then Some (F v) else zget vals v.
Proof.
  induction es as [|e es IH]; intros H vals L; cbn [ofold].
  - exists vals. auto.
  - destruct (write_element (e := e) (vals := vals)) as (v1 & E1 & L1 & P1); [apply H; now left|assumption|]. rewrite E1. cbn [obind].
    destruct (IH (fun x J => H x (or_intror J)) v1) as (v2 & E2 & L2 & P2); [congruence|]. exists v2. split; [exact E2|]. split; [congruence|].
    intros v. rewrite P2, P1. cbn [existsb]. destruct (smem v (s_verts e)), (existsb _ es); reflexivity.
Qed.
Lemma write_grid : exists vals, evaluateOnVertices eval g = Some vals /\ length vals = Z.to_nat (g_n2 g) /\
  (forall e k, In e (g_elts g) -> (k < 3)%nat -> zget vals (vert e k) = Some (F (vert e k))) /\
  (forall v, (0 <= v < g_n2 g)%Z -> (forall e, In e (g_elts g) -> ~ hasVertex e v) -> zget vals v = Some 0).
Proof.
  destruct (write_all (es := g_elts g) ltac:(auto) (vals := repeat 0 (Z.to_nat (g_n2 g)))) as (vals & E & L & P); [apply repeat_length|].
  exists vals. split; [exact E|]. split; [rewrite L; apply repeat_length|]. split.
  - intros e k I K. rewrite P. assert (X : existsb (fun x => smem (vert e k) (s_verts x)) (g_elts g) = true); [|now rewrite X].
    apply existsb_exists. exists e. split; [exact I|]. apply smem_In. destruct (tri_distinct TR I) as (a & b & c & V & _). unfold vert. rewrite V. destruct k as [|[|[|]]]; [| | |lia]; cbn; auto.
  - intros v R N. rewrite P. assert (X : existsb (fun x => smem v (s_verts x)) (g_elts g) = false).
    { apply not_true_is_false. intros X. apply existsb_exists in X as (e & I & X). apply smem_In in X. now apply (N e I). }
    rewrite X. unfold zget. destruct (Z.ltb_spec v 0); [lia|]. apply nth_error_repeat_. lia.
Qed.
End Vertices.
