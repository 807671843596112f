(** C170, C171: regular spheres. *)
From Coq Require Import Reals List Arith Bool Lia Lra.
Import ListNotations.
From Verif Require Import BoxModel GridModel GridSpec GridGeomModel GridProofs SphModel SphSpec SphProofs SphGeo.

(** C170.  Refinement level n: 8 4^n triangles and 4 4^n + 2 nodes; the triangles form a closed, consistently oriented surface, their
    corners are nodes, and every node is a corner. *)
Theorem C170_regular_sphere_surface : forall n radius origin, exists nodes es,
  sphereMesh n radius origin = Some (nodes, es) /\
  length es = 8 * 4 ^ n /\ length nodes = 4 * 4 ^ n + 2 /\
  closedOriented es /\
  (forall e, In e es -> nodesBelow (length nodes) e /\ distinctNodes e) /\
  (forall i, i < length nodes -> exists e s, In e es /\ s < 3 /\ enode e s = i).
Proof.
  intros n r o. destruct (@refineTimes_ok n _ octahedron_inv) as ([nodes es] & E & (BL & CL & UN & GE & US) & L1 & L2).
  unfold sphereMesh. rewrite E. exists (map (place r o) nodes), es. rewrite map_length. cbn [fst snd] in *.
  change (length octahedronElements) with 8 in *. change (length octahedronNodes) with 6 in *.
  repeat (split; [first [reflexivity|assumption|lia]|]). split; [|exact US].
  intros e I. rewrite Forall_forall in BL. split; [now apply BL|]. destruct (GE e I) as (a & b & c & (A & B & C) & (_ & _ & _ & D)).
  destruct e as [[x y] z]. unfold distinctNodes. cbn in *. repeat split; intros ->.
  - assert (a = b) by congruence. subst b. rewrite det_same in D. lra.
  - assert (a = c) by congruence. subst c. rewrite det_cyc, det_cyc, det_same in D. lra.
  - assert (b = c) by congruence. subst c. rewrite det_cyc, det_same in D. lra.
Qed.
Print Assumptions C170_regular_sphere_surface.

(** C171.  All nodes lie on the sphere; for a positive radius all triangles face outwards (and are not degenerate). *)
Theorem C171_regular_sphere_geometry : forall n radius origin nodes es, sphereMesh n radius origin = Some (nodes, es) ->
  (forall p, In p nodes -> onSphere origin radius p) /\
  ((0 < radius)%R -> forall e, In e es -> exists a b c, cornersOf nodes e a b c /\ facesAway origin a b c).
Proof.
  intros n r o nodes es H. destruct (@refineTimes_ok n _ octahedron_inv) as ([nodes0 es0] & E & (BL & CL & UN & GE & US) & _ & _).
  unfold sphereMesh in H. rewrite E in H. injection H as <- <-. split.
  - intros p I. apply in_map_iff in I as (q & <- & I). rewrite Forall_forall in UN. specialize (UN _ I).
    unfold onSphere, place. pt. replace (r * r)%R with (r * r * (fst (fst q) * fst (fst q) + snd (fst q) * snd (fst q) + snd q * snd q))%R by (rewrite UN; ring). ring.
  - intros R e I. destruct (GE e I) as (a & b & c & (A & B & C) & (_ & _ & _ & D)). exists (place r o a), (place r o b), (place r o c).
    unfold cornersOf. rewrite !nth_error_map, A, B, C. split; [repeat split; reflexivity|].
    assert (F : pdot (pcross (psub (place r o b) (place r o a)) (psub (place r o c) (place r o a))) (psub (place r o a) o) = (r * r * r * det a b c)%R).
    { unfold place. pt. ring. }
    unfold facesAway. rewrite F. repeat apply Rmult_lt_0_compat; assumption.
Qed.
Print Assumptions C171_regular_sphere_geometry.

(** level 1, radius 2: 32 triangles on 18 nodes *)
Example C170_ex : exists nodes es, sphereMesh 1 2 (1, 0, 0)%R = Some (nodes, es) /\ length es = 32 /\ length nodes = 18 /\
  forall p, In p nodes -> onSphere (1, 0, 0)%R 2 p.
Proof.
  destruct (C170_regular_sphere_surface 1 2 (1, 0, 0)%R) as (nodes & es & E & L & L' & _). exists nodes, es.
  split; [exact E|]. split; [exact L|]. split; [exact L'|]. apply (C171_regular_sphere_geometry _ _ _ _ _ E).
Qed.
(** level 0 is the octahedron *)
Example C171_ex : sphereMesh 0 3 (0, 0, 1)%R = Some (map (place 3 (0, 0, 1)%R) octahedronNodes, octahedronElements) /\ sideAt octahedronElements 1 2 (2, 1) /\ sideAt octahedronElements 5 1 (1, 2).
Proof. repeat split; eexists; split; reflexivity. Qed.
