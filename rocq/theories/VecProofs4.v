From Coq Require Import Reals Lra Lia.
From Verif Require Import Base ComplexR SegModel SegSpec SegProofs AsmModel SpaceModel SpaceSpec SpaceProofs SpaceRwgProofs PolySpec VecModel VecSpec VecProofs VecProofs2 VecProofs3.
Set Implicit Arguments.
Unset Strict Implicit.
Local Open Scope R_scope.

Lemma dist_comm a b : dist a b = dist b a.
Proof. unfold dist. f_equal. unfold dot, vsub. cbn [vx vy vz]. ring. Qed.

Lemma same_ends (a b a' b' : Z) : (forall v, In v [a; b] <-> In v [a'; b']) -> a = a' /\ b = b' \/ a = b' /\ b = a'.
Proof.
  intros H. pose proof (proj1 (H a) ltac:(now left)) as A. pose proof (proj1 (H b) ltac:(now right; left)) as B.
  pose proof (proj2 (H a') ltac:(now left)) as A'. pose proof (proj2 (H b') ltac:(now right; left)) as B'. clear H. cbn [In] in *.
  destruct A as [A|[A|[]]], B as [B|[B|[]]], A' as [A'|[A'|[]]], B' as [B'|[B'|[]]]; subst; auto.
Qed.
Section Conf.
Variables (g : sgrid) (pos : Z -> vec) (s : segment).
Hypotheses (TR : triangulation g) (PG : properGrid g pos).

(** the ends of a side *)
Lemma side_ends e T k i : In e (g_elts g) -> cornersOf pos e = Some T -> sideIs e k i ->
  exists a b, In (i, [a; b]) (s_facets e) /\ sideLength T k = dist (pos a) (pos b).
Proof.
  intros I C S. destruct TR as (A & _). destruct (A e I) as (a & b & c & i0 & j & l & V & _ & FF). unfold cornersOf in C. rewrite V in C. injection C as <-.
  unfold sideIs in S. rewrite FF in *. unfold sideLength. destruct k as [|[|[|]]]; cbn [map fst nth_error] in S.
  - injection S as <-. exists a, b. split; [now left|reflexivity].
  - injection S as <-. exists a, c. split; [right; now left|]. cbn. apply dist_comm.
  - injection S as <-. exists b, c. split; [right; right; now left|reflexivity].
  - destruct n; discriminate.
Qed.
Lemma side_length_same e T k e' T' k' i : In e (g_elts g) -> In e' (g_elts g) -> cornersOf pos e = Some T -> cornersOf pos e' = Some T' ->
  sideIs e k i -> sideIs e' k' i -> sideLength T k = sideLength T' k'.
Proof.
  intros I I' C C' S S'. destruct (side_ends I C S) as (a & b & X & ->). destruct (side_ends I' C' S') as (a' & b' & X' & ->).
  assert (SV : forall v, In v [a; b] <-> In v [a'; b']). { destruct TR as (_ & B & _). exact (proj1 (B e e' _ _ I I' X X') eq_refl). }
  assert (O := same_ends SV).
  destruct O as [(-> & ->)|(-> & ->)]; [reflexivity|apply dist_comm].
Qed.

Lemma eval_hdiv (m : dofmap Rsr) u e T q : consistent m -> length u = globalDofCount m -> cornersOf pos e = Some T ->
  (forall k, (k < 3)%nat -> exists w, dofWeight m (s_index e) k w) ->
  exists a b c, evaluateHdiv pos m u e q = Some (vadd (vadd (vadd vzero (vscale a (hdivValue T (rtValue 0 q)))) (vscale b (hdivValue T (rtValue 1 q)))) (vscale c (hdivValue T (rtValue 2 q)))) /\
   evaluateHcurl pos m u e q = Some (vadd (vadd (vadd vzero (vscale a (hcurlValue T (ncValue 0 q)))) (vscale b (hcurlValue T (ncValue 1 q)))) (vscale c (hcurlValue T (ncValue 2 q)))) /\
   forall k d w, (k < 3)%nat -> globalDof m (s_index e) k d -> dofWeight m (s_index e) k w ->
     match k with O => a | Datatypes.S O => b | _ => c end = coefficient u d * w.
Proof.
  intros C L CT W. destruct (W 0%nat) as (w0 & W0); [lia|]. destruct (W 1%nat) as (w1 & W1); [lia|]. destruct (W 2%nat) as (w2 & W2); [lia|].
  destruct (local_coefficients C L (ex_intro _ w0 W0)) as (cs & E & N).
  assert (C' := C). destruct C' as (_ & C2 & _).
  destruct (proj2 (C2 _ _) (ex_intro _ w0 W0)) as (d0 & D0). destruct (proj2 (C2 _ _) (ex_intro _ w1 W1)) as (d1 & D1). destruct (proj2 (C2 _ _) (ex_intro _ w2 W2)) as (d2 & D2).
  exists (coefficient u d0 * w0), (coefficient u d1 * w1), (coefficient u d2 * w2).
  unfold evaluateHdiv, evaluateHcurl. rewrite CT. cbn [obind]. rewrite E. cbn [obind].
  rewrite !(@sum3 _ _ (coefficient u d0 * w0) (coefficient u d1 * w1) (coefficient u d2 * w2)) by (apply N; assumption).
  split; [reflexivity|]. split; [reflexivity|].
  intros k d w K D V. assert (U := N k d w D V). destruct k as [|[|[|]]]; [| | |lia].
  - rewrite (N _ _ _ D0 W0) in U. congruence.
  - rewrite (N _ _ _ D1 W1) in U. congruence.
  - rewrite (N _ _ _ D2 W2) in U. congruence.
Qed.
Lemma eval_flux (m : dofmap Rsr) u e T k q nu d w : consistent m -> length u = globalDofCount m -> cornersOf pos e = Some T -> proper T ->
  (forall k, (k < 3)%nat -> exists w, dofWeight m (s_index e) k w) ->
  (k < 3)%nat -> onSide k q -> outward T k nu -> globalDof m (s_index e) k d -> dofWeight m (s_index e) k w ->
  0 < sideLength T k /\ exists v, evaluateHdiv pos m u e q = Some v /\ dot v nu = coefficient u d * w / sideLength T k.
Proof.
  intros C L CT P W K Q O D V. split; [now apply (side_height P K O)|]. destruct (eval_hdiv q C L CT W) as (a & b & c & E & _ & N). eexists. split; [exact E|].
  rewrite !dot_add_l, !dot_scale_l, dot_zero_l. rewrite !(fun k' K' => rt_flux P (k := k') K' K Q O) by lia. specialize (N k d w K D V).
  destruct k as [|[|[|]]]; [| | |lia]; cbn [Nat.eqb] in *; subst; unfold Rdiv; ring.
Qed.
(** rotation by the normal turns one into the other *)
Lemma eval_hcurl (m : dofmap Rsr) u e T q : consistent m -> length u = globalDofCount m -> cornersOf pos e = Some T -> proper T ->
  (forall k, (k < 3)%nat -> exists w, dofWeight m (s_index e) k w) ->
  exists v, evaluateHdiv pos m u e q = Some v /\ evaluateHcurl pos m u e q = Some (cross (normal T) v).
Proof.
  intros C L CT P W. destruct (eval_hdiv q C L CT W) as (a & b & c & E & E' & _). eexists. split; [exact E|]. rewrite E'. f_equal.
  rewrite !(nc_rotates_rt P), !cross_add_r, !cross_scale_r. apply vec_eq; unfold cross, vadd, vscale, vzero; cbn [vx vy vz]; ring.
Qed.
End Conf.

(** the conormal of a side is the product of its direction and the normal *)
Section Conormal.
Variables (T : tri) (P : proper T).
Lemma sideLength_pos k : (k < 3)%nat -> 0 < sideLength T k /\ sideLength T k * sideLength T k = dot (vsub (sideTo T k) (sideFrom T k)) (vsub (sideTo T k) (sideFrom T k)).
Proof.
  intros K. assert (LE : sideLength T k * sideLength T k = dot (vsub (sideTo T k) (sideFrom T k)) (vsub (sideTo T k) (sideFrom T k))).
  { unfold sideLength, dist. rewrite sqrt_sqrt by apply dot_nonneg. unfold dot, vsub. cbn [vx vy vz]. ring. }
  split; [|exact LE]. assert (LN : 0 <= sideLength T k) by apply sqrt_pos. destruct LN as [?|Q]; [assumption|]. exfalso. rewrite <- Q, Rmult_0_l in LE. symmetry in LE. apply dot_zero in LE.
  apply P. revert LE. clear. unfold vzero. destruct T as [[x0 y0 z0] [x1 y1 z1] [x2 y2 z2]]. destruct k as [|[|]]; cbn [sideTo sideFrom c0 c1 c2]; unfold vsub, cross; cbn [vx vy vz]; intros E; injection E as A B C; f_equal; 
  [replace x1 with x0 by lra; replace y1 with y0 by lra; replace z1 with z0 by lra| | |replace x2 with x0 by lra; replace y2 with y0 by lra; replace z2 with z0 by lra| | |replace x2 with x1 by lra; replace y2 with y1 by lra; replace z2 with z1 by lra| |]; try ring.
  - replace x1 with x0 by lra; replace z1 with z0 by lra; ring.
  - replace x1 with x0 by lra; replace y1 with y0 by lra; ring.
  - replace x2 with x0 by lra; replace z2 with z0 by lra; ring.
  - replace x2 with x0 by lra; replace y2 with y0 by lra; ring.
  - replace x2 with x1 by lra; replace z2 with z1 by lra; ring.
  - replace x2 with x1 by lra; replace y2 with y1 by lra; ring.
Qed.
Lemma conormal k : (k < 3)%nat -> outward T k (cross (vscale (/ sideLength T k) (vsub (sideTo T k) (sideFrom T k))) (normal T)).
Proof.
  intros K. destruct (sideLength_pos K) as (L & LL). assert (I := ie_pos P). assert (S := ie_sq P). set (E := vsub (sideTo T k) (sideFrom T k)) in *.
  rewrite cross_scale_l. rewrite (normal_eq T), cross_scale_r.
  assert (EN : dot E (cross (jt T 0) (jt T 1)) = 0). { subst E. destruct k as [|[|[|]]]; [| | |lia]; unfold dot, cross, vsub; cbn [sideTo sideFrom jt vx vy vz]; unfold vsub; cbn [vx vy vz]; ring. }
  unfold outward. fold E. change (vsub (c1 T) (c0 T)) with (jt T 0). change (vsub (c2 T) (c0 T)) with (jt T 1).
  rewrite !dot_scale_l, !dot_scale_r, lagrange, EN, <- (gram_cross T), <- LL. repeat split.
  - rewrite <- S. field. lra.
  - replace (dot (cross E (cross (jt T 0) (jt T 1))) E) with 0 by (unfold dot, cross; cbn [vx vy vz]; ring). ring.
  - replace (dot (cross E (cross (jt T 0) (jt T 1))) (cross (jt T 0) (jt T 1))) with 0 by (unfold dot, cross; cbn [vx vy vz]; ring). ring.
  - replace (dot (cross E (cross (jt T 0) (jt T 1))) (vsub (opposite T k) (sideFrom T k))) with (- gramDet T).
    + rewrite <- S. replace (/ sideLength T k * (/ integrationElement T * - (integrationElement T * integrationElement T))) with (- (/ sideLength T k * integrationElement T)) by (field; lra).
      assert (0 < / sideLength T k) by (now apply Rinv_0_lt_compat). assert (0 < / sideLength T k * integrationElement T) by (now apply Rmult_lt_0_compat). lra.
    + rewrite (gram_cross T). subst E. destruct k as [|[|[|]]]; [| | |lia]; unfold dot, cross, vsub; cbn [sideTo sideFrom opposite jt vx vy vz]; unfold vsub; cbn [vx vy vz]; ring.
Qed.
Lemma tangential k t v : (k < 3)%nat -> along T k t -> dot (cross (normal T) v) t = dot v (cross t (normal T)).
Proof. intros _ _. unfold dot, cross. cbn [vx vy vz]. ring. Qed.
End Conormal.
