(** C14, C51: bounding boxes. *)
From Coq Require Import Reals Lra List.
Import ListNotations.
From Verif Require Import BoxModel BoxSpec BoxProofs.
Local Open Scope R_scope.

(** C14, merge: the smallest box containing both. *)
Theorem C14_merge_is_smallest_box :
  forall a b, validBox a -> validBox b ->
  (forall p, inBox a p \/ inBox b p -> inBox (merge a b) p) /\
  (forall c, (forall p, inBox a p -> inBox c p) -> (forall p, inBox b p -> inBox c p) ->
     forall p, inBox (merge a b) p -> inBox c p).
Proof. exact merge_ok. Qed.
(** ... and the corners of a box are the eight points whose coordinates are end points of its sides *)
Theorem C14_corners : forall b p, length (corners b) = 8%nat /\
  (In p (corners b) <-> (px p = d0 b \/ px p = d1 b) /\ (py p = d2 b \/ py p = d3 b) /\ (pz p = d4 b \/ pz p = d5 b)).
Proof.
  intros b [[x y] z]. split; [reflexivity|]. unfold px, py, pz. cbn. split.
  - intros H. repeat (destruct H as [H | H]; [injection H as <- <- <-; auto|]). destruct H.
  - intros ([-> | ->] & [-> | ->] & [-> | ->]); tauto.
Qed.
Print Assumptions C14_merge_is_smallest_box.

(** C14, distance: symmetric, a lower bound for the distance of points of the two boxes
    that is attained, and zero iff the boxes meet. *)
Theorem C14_distance_is_set_distance :
  forall a b, validBox a -> validBox b ->
  distance a b = distance b a /\
  (forall p q, inBox a p -> inBox b q -> distance a b <= dist p q) /\
  (exists p q, inBox a p /\ inBox b q /\ distance a b = dist p q) /\
  (distance a b = 0 <-> exists p, inBox a p /\ inBox b p).
Proof. intros a b Va Vb. split; [now apply distance_sym|now apply distance_ok]. Qed.
Print Assumptions C14_distance_is_set_distance.

(** C14, divide: the halves tile the box; a point is contained (half-open test) in the
    box iff it is contained in exactly one half; other dimensions are rejected. *)
Theorem C14_divide_tiles :
  forall b dim f, validBox b -> 0 <= f <= 1 ->
  ((2 < dim)%nat -> divide b dim f = None) /\
  ((dim <= 2)%nat -> exists l r, divide b dim f = Some (l, r) /\ validBox l /\ validBox r /\
     (forall p, inBox b p <-> inBox l p \/ inBox r p) /\
     (forall p, contains b p = xorb (contains l p) (contains r p)) /\
     (forall p, contains b p = orb (contains l p) (contains r p))).
Proof. exact divide_ok. Qed.
Print Assumptions C14_divide_tiles.

(** C14, stored data: diameter is the largest distance of two points of the box and is
    attained; maxDimension is a direction of largest extent. *)
Theorem C14_diameter_and_longest_direction :
  forall a b c d e f, a <= b -> c <= d -> e <= f ->
  let B := mkBox a b c d e f in
  (forall p q, inBox B p -> inBox B q -> dist p q <= diam B) /\
  (exists p q, inBox B p /\ inBox B q /\ dist p q = diam B) /\
  (maxDim B <= 2)%nat /\
  (let ext i := match i with O => b - a | 1%nat => d - c | _ => f - e end in
   forall i, (i <= 2)%nat -> ext i <= ext (maxDim B)).
Proof. exact box_geometry. Qed.
Print Assumptions C14_diameter_and_longest_direction.

(** C14, boxes of triangles: smallest box containing the three points. *)
Theorem C14_triangle_box :
  forall p q r, let B := boundingBoxFromTriangleData p q r in
  (inBox B p /\ inBox B q /\ inBox B r) /\ validBox B /\
  (forall c, inBox c p -> inBox c q -> inBox c r -> forall x, inBox B x -> inBox c x).
Proof. exact triangle_box. Qed.
Print Assumptions C14_triangle_box.

(** C14, admissibility: strongly admissible pairs are weakly admissible and disjoint. *)
Theorem C14_strong_admissibility_separates :
  forall eta t1 t2 a b, 0 < eta -> 0 <= t1 -> 0 <= t2 -> validBox a -> validBox b ->
  strongAdmissibility eta t1 t2 a b = true ->
  Rmin t1 t2 < eta * distance a b /\ weakAdmissibility a b = true /\ ~ exists p, inBox a p /\ inBox b p.
Proof. exact strong_adm. Qed.
Print Assumptions C14_strong_admissibility_separates.

(** C58 refuted: a default-constructed box is not neutral for merge (its maxima are the
    smallest positive double): merging it with [-2,-1]^3 gives a box containing
    (0,-1,-1). *)
Theorem C58_default_box_not_neutral_refuted :
  forall dblMax dblMin, 0 < dblMin < dblMax ->
  let B := merge (defaultBox dblMax dblMin) (mkBox (-2) (-1) (-2) (-1) (-2) (-1)) in
  inBox B (0, -1, -1) /\ ~ inBox (mkBox (-2) (-1) (-2) (-1) (-2) (-1)) (0, -1, -1).
Proof. exact default_merge_wrong. Qed.
Print Assumptions C58_default_box_not_neutral_refuted.

(** C58, what holds: the default box is neutral for boxes with positive maxima (at least
    dblMin) and minima at most dblMax. *)
Theorem C58_default_box_neutral_partial :
  forall dblMax dblMin b, dblMin <= d1 b -> dblMin <= d3 b -> dblMin <= d5 b ->
  d0 b <= dblMax -> d2 b <= dblMax -> d4 b <= dblMax ->
  merge (defaultBox dblMax dblMin) b = mkBox (d0 b) (d1 b) (d2 b) (d3 b) (d4 b) (d5 b).
Proof.
  intros. unfold merge, defaultBox, mkBox. cbn [computeGeometricData d0 d1 d2 d3 d4 d5].
  rewrite !Rmin_right, !Rmax_right by assumption. reflexivity.
Qed.
Print Assumptions C58_default_box_neutral_partial.

(** C51.  The bounding box of a dof contains every corner of every element the dof
    lives on, is the smallest such box, and contains its reference point.  Coordinates
    within [-maxCoord, maxCoord]. *)
Theorem C51_dof_bounding_box :
  forall maxCoord corners k rest p, nth_error corners k = Some p ->
  let pts := concat (map fst ((corners, k) :: rest)) in
  (forall q, In q pts -> ple (- maxCoord, - maxCoord, - maxCoord) q /\ ple q (maxCoord, maxCoord, maxCoord)) ->
  exists b, dofBoundingBox maxCoord ((corners, k) :: rest) = Some b /\
    (forall q, In q pts -> inBB b q) /\ reference b = p /\ inBB b p /\
    (forall l u, (forall q, In q pts -> ple l q /\ ple q u) -> ple l (lbound b) /\ ple (ubound b) u).
Proof. exact dof_bbox. Qed.
Print Assumptions C51_dof_bounding_box.

(** C51, extendBoundingBox on an arbitrary box. *)
Theorem C51_extend_is_smallest :
  forall pts b, let c := extendBoundingBox b pts in
  ple (lbound c) (lbound b) /\ ple (ubound b) (ubound c) /\
  (forall p, In p pts -> inBB c p) /\
  (forall l, ple l (lbound b) -> (forall p, In p pts -> ple l p) -> ple l (lbound c)) /\
  (forall u, ple (ubound b) u -> (forall p, In p pts -> ple p u) -> ple (ubound c) u) /\
  reference c = reference b.
Proof. exact extend_bounds. Qed.
Print Assumptions C51_extend_is_smallest.

(** C59, partial: createBoundingBox sets the bounds; its reference point lies in the box
    exactly under the stated conditions (e.g. boxes with a corner at the origin). *)
Theorem C59_created_box_reference_partial :
  forall x0 y0 z0 x1 y1 z1, x0 <= x1 -> y0 <= y1 -> z0 <= z1 ->
  let b := createBoundingBox x0 y0 z0 x1 y1 z1 in
  lbound b = (x0, y0, z0) /\ ubound b = (x1, y1, z1) /\
  (inBB b (reference b) <->
   (3 * x0 <= x1 /\ - x0 <= x1 /\ 3 * y0 <= y1 /\ - y0 <= y1 /\ 3 * z0 <= z1 /\ - z0 <= z1)).
Proof. intros. split; [reflexivity|]. split; [reflexivity|]. now apply create_reference. Qed.
Print Assumptions C59_created_box_reference_partial.

(** C59 refuted: the documented "reference set to mid point" is not the mid point and may
    lie outside the box. *)
Theorem C59_created_box_reference_refuted :
  let b := createBoundingBox 1 1 1 2 2 2 in
  ~ inBB b (reference b) /\ reference b <> ((1 + 2) / 2, (1 + 2) / 2, (1 + 2) / 2).
Proof.
  split.
  - intros H. apply create_reference in H; lra.
  - cbn. intros H. inversion H. lra.
Qed.
Print Assumptions C59_created_box_reference_refuted.

(** ---- instances ---- *)
Example C14_instance :
  let a := mkBox 0 1 0 1 0 1 in let b := mkBox 4 5 5 6 0 2 in
  validBox a /\ validBox b /\ distance a b = 5 /\ 
  strongAdmissibility 1 2 (diam b) a b = true.
Proof.
  assert (V : forall x y, x <= y -> x <= y) by auto.
  assert (D : distance (mkBox 0 1 0 1 0 1) (mkBox 4 5 5 6 0 2) = 5).
  { unfold distance, intervalDistance, gtb. cbn.
    repeat match goal with |- context [Rlt_dec ?x ?y] => destruct (Rlt_dec x y); try lra end.
    replace (0 + (4 - 1) * (4 - 1) + (5 - 1) * (5 - 1) + 0 * 0) with (5 * 5) by ring.
    apply sqrt_square. lra. }
  unfold validBox. cbn [mkBox computeGeometricData d0 d1 d2 d3 d4 d5].
  split; [lra|]. split; [lra|]. split; [exact D|].
  unfold strongAdmissibility. rewrite D. apply gtb_true.
  eapply Rle_lt_trans; [apply Rmin_l|lra].
Qed.
Example C51_instance :
  exists b, dofBoundingBox 100 [([(0,0,0); (1,0,0); (0,1,0)], 1%nat); ([(1,0,0); (3,3,3); (2,-1,5)], 0%nat)] = Some b
   /\ reference b = (1, 0, 0) /\ inBB b (1, 0, 0).
Proof.
  destruct (C51_dof_bounding_box 100 [(0,0,0); (1,0,0); (0,1,0)] 1 [([(1,0,0); (3,3,3); (2,-1,5)], 0%nat)] (1,0,0) eq_refl)
    as (b & E & _ & R & I & _).
  - cbn. intros q Hq. unfold ple, px, py, pz.
    repeat (destruct Hq as [<-|Hq]; [cbn; lra|]). destruct Hq.
  - exists b. auto.
Qed.
Print Assumptions C14_corners.
