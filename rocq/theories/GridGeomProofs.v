From Coq Require Import Reals Lra List Arith Lia.
Import ListNotations.
From Verif Require Import Base BoxModel BoxSpec FmmGeomModel GridModel GridSpec GridProofs GridGeomModel.
Local Open Scope R_scope.

(** vector area * 2 *)
Definition normal (p q r : point) : point := cross (vsub q p) (vsub r p).
Definition scale (k : R) (p : point) : point := (k * px p, k * py p, k * pz p).

Lemma midpoint_sym p q : midpoint p q = midpoint q p.
Proof. unfold midpoint. f_equal; [f_equal|]; lra. Qed.

Lemma midpoint_ord P a b : midpoint (P (fst (ord a b))) (P (snd (ord a b))) = midpoint (P a) (P b).
Proof. unfold ord. destruct (a <? b)%nat; cbn [fst snd]; [apply midpoint_sym|reflexivity]. Qed.

Ltac vec := unfold scale, normal, cross, vsub, midpoint, barycentre, px, py, pz; cbn [fst snd];
  f_equal; [f_equal|]; field.

Lemma son_normal (a b c : point) :
  let m0 := midpoint a b in let m1 := midpoint c a in let m2 := midpoint b c in let g := barycentre a b c in
  let n := scale (1 / 6) (normal a b c) in
  normal a g m1 = n /\ normal a m0 g = n /\ normal b g m0 = n /\ normal b m2 g = n /\ normal c g m2 = n /\ normal c m1 g = n.
Proof.
  cbn zeta. destruct a as [[a1 a2] a3], b as [[b1 b2] b3], c as [[c1 c2] c3].
  repeat split; vec.
Qed.

Lemma baryVertex_node c P n : (n < c_nnodes c)%nat -> baryVertex c P n = Some (P n).
Proof. intros H. unfold baryVertex. apply Nat.ltb_lt in H. now rewrite H. Qed.
Lemma baryVertex_edge c P k e : nth_error (c_edges c) k = Some e ->
  baryVertex c P (c_nnodes c + k) = Some (midpoint (P (fst e)) (P (snd e))).
Proof.
  intros H. unfold baryVertex.
  assert (k < length (c_edges c))%nat by (apply nth_error_Some; congruence).
  destruct (Nat.ltb_spec (c_nnodes c + k) (c_nnodes c)); [lia|].
  destruct (Nat.ltb_spec (c_nnodes c + k) (c_nnodes c + length (c_edges c))); [|lia].
  replace (c_nnodes c + k - c_nnodes c)%nat with k by lia. now rewrite H.
Qed.
Lemma baryVertex_elt c P f v : nth_error (c_elements c) f = Some v ->
  baryVertex c P (c_nnodes c + length (c_edges c) + f) = Some (barycentre (P (enode v 0)) (P (enode v 1)) (P (enode v 2))).
Proof.
  intros H. unfold baryVertex.
  destruct (Nat.ltb_spec (c_nnodes c + length (c_edges c) + f) (c_nnodes c)); [lia|].
  destruct (Nat.ltb_spec (c_nnodes c + length (c_edges c) + f) (c_nnodes c + length (c_edges c))); [lia|].
  replace (c_nnodes c + length (c_edges c) + f - c_nnodes c - length (c_edges c))%nat with f by lia. now rewrite H.
Qed.

Lemma bary_normals base nn es c P f s v : Forall (nodesBelow nn) es -> init base nn es = Some c ->
  nth_error es f = Some v -> (s < 6)%nat ->
  exists t p q r, nth_error (barycentricElements c) (6 * f + s) = Some t /\
    baryVertex c P (enode t 0) = Some p /\ baryVertex c P (enode t 1) = Some q /\ baryVertex c P (enode t 2) = Some r /\
    normal p q r = scale (1 / 6) (normal (P (enode v 0)) (P (enode v 1)) (P (enode v 2))).
Proof.
  intros Hb Hi Hv Hs. destruct (init_ok base nn es Hb) as (c' & Ei & Ee & En & El & _ & Hn & _).
  rewrite Hi in Ei. inversion Ei; subst c'; clear Ei.
  destruct (nth_error (c_e2e c) f) as [e|] eqn:He.
  2:{ apply nth_error_None in He. assert (f < length es)%nat by (apply nth_error_Some; congruence). lia. }
  assert (Hbv : nodesBelow nn v). { rewrite Forall_forall in Hb. apply Hb. eapply nth_error_In; exact Hv. }
  destruct Hbv as (B0 & B1 & B2).
  pose proof (baryVertex_node c P (enode v 0) ltac:(rewrite En; exact B0)) as V0.
  pose proof (baryVertex_node c P (enode v 1) ltac:(rewrite En; exact B1)) as V1.
  pose proof (baryVertex_node c P (enode v 2) ltac:(rewrite En; exact B2)) as V2.
  pose proof (baryVertex_edge c P _ _ (Hn f v e 0%nat ltac:(lia) Hv He)) as E0.
  pose proof (baryVertex_edge c P _ _ (Hn f v e 1%nat ltac:(lia) Hv He)) as E1.
  pose proof (baryVertex_edge c P _ _ (Hn f v e 2%nat ltac:(lia) Hv He)) as E2.
  unfold sideOrd in E0, E1, E2. rewrite midpoint_ord in E0, E1, E2. cbn [localEdgeNodes fst snd] in E0, E1, E2.
  pose proof (baryVertex_elt c P f v ltac:(rewrite Ee; exact Hv)) as B.
  rewrite <- Ee in Hv.
  pose proof (bary_nth c f s v e ltac:(now rewrite Ee, El) Hv He Hs) as Hson.
  destruct (son_normal (P (enode v 0)) (P (enode v 1)) (P (enode v 2))) as (N0 & N1 & N2 & N3 & N4 & N5).
  rewrite Hson. unfold sons.
  destruct s as [|[|[|[|[|[|s]]]]]]; [| | | | | |lia]; cbn [nth_error];
  eexists _, _, _, _; (split; [reflexivity|]); cbn [enode fst snd].
  - split; [exact V0|]. split; [exact B|]. split; [exact E1|]. exact N0.
  - split; [exact V0|]. split; [exact E0|]. split; [exact B|]. exact N1.
  - split; [exact V1|]. split; [exact B|]. split; [exact E0|]. exact N2.
  - split; [exact V1|]. split; [exact E2|]. split; [exact B|]. exact N3.
  - split; [exact V2|]. split; [exact B|]. split; [exact E2|]. exact N4.
  - split; [exact V2|]. split; [exact E1|]. split; [exact B|]. exact N5.
Qed.

(** ---- the cell containing a point: covering of [0,nx] x [0,ny] ---- *)
Lemma cell_exists (n : nat) (x : R) : (0 < n)%nat -> 0 <= x <= INR n ->
  exists k, (k < n)%nat /\ INR k <= x <= INR (k + 1).
Proof.
  intros Hn [H0 H1]. induction n as [|n IH]; [lia|].
  destruct n as [|n].
  - exists 0%nat. split; [lia|]. cbn in *. lra.
  - destruct (Rle_lt_dec x (INR (S n))) as [Hle|Hlt].
    + destruct IH as (k & Hk & H); [lia|exact Hle|]. exists k. split; [lia|exact H].
    + exists (S n). split; [lia|]. rewrite Nat.add_1_r. lra.
Qed.

(** barycentric coordinates in the lattice triangle *)
Definition inLattice (p q r : R * R) (x y : R) : Prop :=
  exists a b c, 0 <= a /\ 0 <= b /\ 0 <= c /\ a + b + c = 1 /\
    x = a * fst p + b * fst q + c * fst r /\ y = a * snd p + b * snd q + c * snd r.

Lemma unit_cell (u v : R) (k l : R) : k <= u <= k + 1 -> l <= v <= l + 1 ->
  inLattice (k, l) (k + 1, l) (k + 1, l + 1) u v \/ inLattice (k, l) (k + 1, l + 1) (k, l + 1) u v.
Proof.
  intros Hu Hv. destruct (Rle_lt_dec (v - l) (u - k)) as [H|H].
  - left. exists (1 - (u - k)), ((u - k) - (v - l)), (v - l). cbn [fst snd]. repeat match goal with |- _ /\ _ => split end; try lra; ring.
  - right. exists (1 - (v - l)), (u - k), ((v - l) - (u - k)). cbn [fst snd]. repeat match goal with |- _ /\ _ => split end; try lra; ring.
Qed.
