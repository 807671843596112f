(** C15-C21, C60-C63: the FMM octree. *)
From Coq Require Import List NArith ZArith Bool Lia Reals Lra.
Import ListNotations.
From Verif Require Import BoxModel BoxSpec FmmModel FmmSpec FmmProofs FmmTreeProofs FmmGeomModel FmmGeomProofs.
Local Open Scope N_scope.

(** C15. deMorton inverts morton on coordinates below 1024. *)
Theorem C15_deMorton_morton :
  forall x y z, x < 1024 -> y < 1024 -> z < 1024 ->
  exists n, morton x y z = Some n /\ n < 2 ^ 30 /\ deMorton n = (x, y, z).
Proof.
  intros x y z Hx Hy Hz. exists (mor x y z). split; [now apply morton_some|]. split.
  - exact (mor_bound 10 x y z (le_n 10) Hx Hy Hz).
  - now apply deMorton_mor.
Qed.
Print Assumptions C15_deMorton_morton.
(** C15. morton inverts deMorton on codes below 2^30. *)
Theorem C15_morton_deMorton :
  forall n x y z, n < 2 ^ 30 -> deMorton n = (x, y, z) ->
  x < 1024 /\ y < 1024 /\ z < 1024 /\ morton x y z = Some n.
Proof.
  intros n x y z Hn E. destruct (coords 10 n) as (Hx & Hy & Hz & En); [lia|exact Hn|].
  unfold cx, cy, cz in *. rewrite E in *. cbn [fst snd] in *. change (2 ^ 10) with 1024 in *.
  repeat split; try assumption. rewrite morton_some by assumption. now rewrite <- En.
Qed.
Print Assumptions C15_morton_deMorton.
(** C15. Larger coordinates are rejected with an exception. *)
Theorem C15_morton_rejects :
  forall x y z, 1024 <= x \/ 1024 <= y \/ 1024 <= z -> morton x y z = None.
Proof. exact morton_none. Qed.
Print Assumptions C15_morton_rejects.
Example C15_instance : morton 1023 512 5 = Some 421827405 /\ deMorton 421827405 = (1023, 512, 5).
Proof. vm_compute. auto. Qed.

(** C16. Children of a node are the nodes whose parent it is; there are eight. *)
Theorem C16_children_of_parent :
  forall n c, (getFirstChild n <= c <= getLastChild n <-> getParent c = n) /\
              getLastChild n = getFirstChild n + 7.
Proof. intros n c. split; [apply children_iff|reflexivity]. Qed.
Print Assumptions C16_children_of_parent.
(** C16. A child's coordinates are twice its parent's plus 0 or 1; all of a level's
    node numbers have their parents on the level above, and 8^l is the node count. *)
Theorem C16_parent_coordinates :
  forall l c, l < 10 -> onLevel (l + 1) c ->
  onLevel l (getParent c) /\
  (exists a b e, a < 2 /\ b < 2 /\ e < 2 /\
    deMorton c = (2 * cx (getParent c) + a, 2 * cy (getParent c) + b, 2 * cz (getParent c) + e)) /\
  getNodesPerLevel l = 8 ^ l /\ getNodesPerSide l = 2 ^ l.
Proof.
  intros l c Hl Hc. destruct (parent_coords l c Hl Hc) as (H & E1 & E2 & E3).
  split; [exact H|]. split; [|split; [apply nodesPerLevel_pow|apply nodesPerSide_pow]].
  exists (cx c mod 2), (cy c mod 2), (cz c mod 2).
  repeat (split; [apply N.mod_lt; lia|]). rewrite E1, E2, E3, <- !N.div_mod by lia.
  unfold cx, cy, cz. destruct (deMorton c) as [[x y] z]. reflexivity.
Qed.
Print Assumptions C16_parent_coordinates.
(** C16. The closed cubes of the children cover exactly the parent's cube. *)
Theorem C16_children_tile_parent :
  forall o l n p, l < 10 -> isCube o -> onLevel l n ->
  (inCube o n l p <-> exists c, getFirstChild n <= c <= getLastChild n /\ inCube o c (l + 1) p).
Proof.
  intros o l n p Hl Ho Hn. split.
  - intros H. destruct (parent_covered o l n p Hl Ho Hn H) as (c & E & _ & Hc).
    exists c. split; [now apply children_iff|exact Hc].
  - intros (c & Hc & H). apply children_iff in Hc. subst n.
    apply child_in_parent; try assumption. now apply onLevel_child with (q := getParent c).
Qed.
Print Assumptions C16_children_tile_parent.
Example C16_instance : onLevel 2 53 /\ getParent 53 = 6 /\ deMorton 53 = (1, 2, 3) /\ deMorton 6 = (0, 1, 1).
Proof. vm_compute. auto. Qed.

(** C17. getNeighbors: exactly the adjacent nodes of the level, without repetition. *)
Theorem C17_neighbors_exact :
  forall l n, l <= 10 -> onLevel l n ->
  exists nb, getNeighbors n l = Some nb /\ NoDup nb /\
    forall m, In m nb <-> (onLevel l m /\ adjacent m n /\ m <> n).
Proof. exact neighbors_ok. Qed.
Print Assumptions C17_neighbors_exact.
(** C17. Neighbourhood is symmetric. *)
Theorem C17_neighbors_symmetric :
  forall l m n nm nn, l <= 10 -> onLevel l m -> onLevel l n ->
  getNeighbors m l = Some nm -> getNeighbors n l = Some nn -> (In m nn <-> In n nm).
Proof.
  intros l m n nm nn Hl Hm Hn Em En.
  destruct (neighbors_ok l m Hl Hm) as (l1 & E1 & _ & H1). rewrite Em in E1. inversion E1; subst.
  destruct (neighbors_ok l n Hl Hn) as (l2 & E2 & _ & H2). rewrite En in E2. inversion E2; subst.
  rewrite H1, H2. split; intros (A & B & C); repeat split; try assumption; try (apply adjacent_sym in B; apply B); congruence.
Qed.
Print Assumptions C17_neighbors_symmetric.
Example C17_instance : getNeighbors 0 2 = Some [4; 2; 6; 1; 5; 3; 7].
Proof. vm_compute. reflexivity. Qed.

(** C18. Iterating an interaction list visits each non-empty node of the level whose
    parent is adjacent or equal to the node's parent and which is itself neither
    adjacent nor equal to the node, once, and nothing else. *)
Theorem C18_interaction_list_exact :
  forall emp l n, 1 <= l <= 10 -> onLevel l n ->
  exists il, interactionList emp n l = Some il /\ NoDup il /\
    forall m, In m il <->
      (onLevel l m /\ emp m l = false /\ adjacent (getParent m) (getParent n) /\ ~ adjacent m n).
Proof. exact interaction_ok. Qed.
Print Assumptions C18_interaction_list_exact.
Example C18_instance : option_map (@length N) (interactionList (fun _ _ => false) 0 2) = Some 56%nat /\
  option_map (@length N) (interactionList (fun _ _ => false) 63 3) = Some 189%nat.
Proof. vm_compute. auto. Qed.

(** C19. Given correct emptiness flags on the source's ancestors: a pair of leaves is
    adjacent and in no interaction list, or non-adjacent and in exactly one. *)
Theorem C19_near_far_partition :
  forall emp L s t, 1 <= L <= 10 -> onLevel L s -> onLevel L t ->
  (forall k, k < L -> emp (ancestor k s) (L - k) = false) ->
  ((adjacent s t /\ forall k il, k < L -> interactionList emp (ancestor k t) (L - k) = Some il -> ~ In (ancestor k s) il) \/
   (~ adjacent s t /\ exists k, k < L /\
      (exists il, interactionList emp (ancestor k t) (L - k) = Some il /\ In (ancestor k s) il) /\
      forall k', k' < L -> (exists il, interactionList emp (ancestor k' t) (L - k') = Some il /\ In (ancestor k' s) il) -> k' = k)).
Proof. exact near_field_partition. Qed.
Print Assumptions C19_near_far_partition.
Example C19_instance : onLevel 3 0 /\ onLevel 3 511 /\
  existsb (N.eqb (ancestor 1 511)) (match interactionList (fun _ _ => false) (ancestor 1 0) 2 with Some l => l | None => [] end) = true.
Proof. vm_compute. auto. Qed.

(** the emptiness oracle the octree hands to InteractionList *)
Definition emptyOf (o : octree) (n l : N) : bool := isEmpty o n (N.to_nat l).
(** a node is occupied if some entity's leaf descends from it *)
Definition occupied (L : nat) (leafs : list N) (n : N) (l : nat) : Prop :=
  exists e, In e leafs /\ ancestor (N.of_nat (L - l)) e = n.

(** C20, partial: an occupied leaf is never reported empty; on any level a node reported
    non-empty is an entity's leaf (leaf level) or the ancestor ONE LEVEL TOO HIGH of one. *)
Theorem C20_emptiness_partial :
  forall L leafs o, buildOctree L leafs = Some o ->
  (forall e, In e leafs -> isEmpty o e L = false) /\
  (forall n l, (1 <= l <= L)%nat -> isEmpty o n l = false ->
     exists e, In e leafs /\ ((l = L /\ n = e) \/ n = ancestor (N.of_nat (L - l + 1)) e)).
Proof.
  intros L leafs o H. destruct (build_sound L leafs o H) as (HL & _ & Hs & Hl). split.
  - intros e He. unfold isEmpty. apply negb_false_iff, memb_In. now apply Hl.
  - intros n l Hlv Hne. unfold isEmpty in Hne. apply negb_false_iff, memb_In in Hne.
    destruct (Hs _ _ Hne) as (e & He & [[E ->]|[E ->]]); exists e; (split; [exact He|]).
    + left. split; [lia|reflexivity].
    + right. replace (L - l + 1)%nat with (L - (l - 1))%nat by lia. reflexivity.
Qed.
Print Assumptions C20_emptiness_partial.
(** C20 refuted, both ways: an occupied node reported empty, an unoccupied one not. *)
Theorem C20_emptiness_refuted :
  exists L leafs o, buildOctree L leafs = Some o /\
    (occupied L leafs 7 1 /\ isEmpty o 7 1 = true) /\
    (~ occupied L leafs 7 2 /\ isEmpty o 7 2 = false).
Proof.
  exists 2%nat, [63]. eexists. split; [vm_compute; reflexivity|]. split; split.
  - exists 63. vm_compute. auto.
  - vm_compute. reflexivity.
  - intros (e & [<-|[]] & E). vm_compute in E. discriminate.
  - vm_compute. reflexivity.
Qed.
Print Assumptions C20_emptiness_refuted.

(** C60, partial: with the octree's own flags a pair of leaves is in at most one
    interaction list and never both adjacent and in one. *)
Theorem C60_own_flags_partial :
  forall o L s t, 1 <= L <= 10 -> onLevel L s -> onLevel L t ->
  forall k k', k < L -> k' < L ->
  (exists il, interactionList (emptyOf o) (ancestor k t) (L - k) = Some il /\ In (ancestor k s) il) ->
  (exists il, interactionList (emptyOf o) (ancestor k' t) (L - k') = Some il /\ In (ancestor k' s) il) ->
  k = k' /\ ~ adjacent s t.
Proof. intros o. exact (at_most_once (emptyOf o)). Qed.
Print Assumptions C60_own_flags_partial.
(** C60 refuted: two occupied, non-adjacent leaves in no interaction list. *)
Theorem C60_own_flags_refuted :
  exists leafs o s t, buildOctree 3 leafs = Some o /\ In s leafs /\ In t leafs /\ onLevel 3 s /\ onLevel 3 t /\
    ~ adjacent s t /\
    forall k il, k < 3 -> interactionList (emptyOf o) (ancestor k t) (3 - k) = Some il -> ~ In (ancestor k s) il.
Proof.
  exists [0; 511]. eexists. exists 511, 0. split; [vm_compute; reflexivity|].
  split; [cbn; auto|]. split; [cbn; auto|]. split; [reflexivity|]. split; [reflexivity|]. split.
  - intros (H & _). vm_compute in H. destruct H as [H _]. apply H. reflexivity.
  - intros k il Hk E Hin. assert (K : k = 0 \/ k = 1 \/ k = 2) by lia.
    destruct K as [->|[->| ->]]; vm_compute in E; inversion E; subst il; clear E; cbn in Hin; intuition discriminate.
Qed.
Print Assumptions C60_own_flags_refuted.

(** C61. The entities of the grid are distributed over the leaves: each leaf's list is
    the increasing list of the entities whose centroid's leaf it is. *)
Theorem C61_leaf_entities_partition :
  forall L leafs o, buildOctree L leafs = Some o ->
  (forall n i, In i (leafEntities o n) <-> nth_error leafs i = Some n) /\
  (forall n, leafEntities o n = filter (fun i => nth i leafs 0 =? n) (seq 0 (length leafs))).
Proof.
  intros L leafs o H. split; [|intros n; now apply build_leaf with (L := L)].
  intros n i. rewrite (build_leaf L leafs o n H), filter_In, in_seq, N.eqb_eq. split.
  - intros [H1 <-]. apply nth_error_nth'. lia.
  - intros E. split; [split; [lia|]; apply nth_error_Some; congruence|]. now apply nth_error_nth.
Qed.
Print Assumptions C61_leaf_entities_partition.
Example C61_instance :
  option_map (fun o => (leafEntities o 9, leafEntities o 3, leafEntities o 0)) (buildOctree 2 [9; 3; 9; 9; 3])
   = Some ([0; 2; 3]%nat, [1; 4]%nat, []).
Proof. vm_compute. reflexivity. Qed.

Local Open Scope R_scope.
(** C21. The leaf found for any point is a valid leaf; for a point of the octree's
    bounding cube its closed cube contains the point, and it is the only leaf whose
    half-open cube does. *)
Theorem C21_leaf_contains_point :
  forall lb ub e L p, (L <= 10)%N -> ple lb ub -> lb <> ub ->
  let o := mkOctGeom lb ub e in
  exists n, getLeafContainingPoint o L p = Some n /\ onLevel L n /\
    (ple (olo o) p -> ple p (ohi o) ->
       (ple (cubeLower o n L) p /\ ple p (cubeUpper o n L)) /\
       forall m, onLevel L m -> ple (cubeLower o m L) p -> plt p (cubeUpper o m L) -> m = n).
Proof. intros lb ub e L p HL H Hne o. apply leaf_lookup; [exact HL|now apply mkOctGeom_cube]. Qed.
Print Assumptions C21_leaf_contains_point.

(** C62. The extended cube of the leaf to which a (non-degenerate) element is assigned
    contains the whole element. *)
Theorem C62_extended_cube_contains_element :
  forall lb ub L ts t v n, (L <= 10)%N -> ple lb ub -> lb <> ub ->
  let o := mkOctGeom lb ub (extensionSize ts) in
  In t ts -> nondegenerate t ->
  ple (olo o) (centroid t) -> ple (centroid t) (ohi o) ->
  getLeafContainingPoint o L (centroid t) = Some n -> inTriangle t v ->
  ple (extLower o n L) v /\ ple v (extUpper o n L).
Proof.
  intros lb ub L ts t v n HL H Hne o Hin Hnd H1 H2 Hn Hv.
  apply (extended_contains o L ts t v n); auto. now apply mkOctGeom_cube.
Qed.
Print Assumptions C62_extended_cube_contains_element.

(** C63. Element diameters: maximumElementDiameter and minimumElementDiameter are
    attained and bound the diameters of all elements, and an element's diameter is at
    least each of its sides (it is the diameter of the circumscribed circle). *)
Theorem C63_element_diameters :
  forall ts, ts <> [] -> (forall t, In t ts -> nondegenerate t) ->
  (exists t, In t ts /\ maximumElementDiameter ts = elementDiameter t) /\
  (exists t, In t ts /\ minimumElementDiameter ts = Some (elementDiameter t)) /\
  (forall t, In t ts -> elementDiameter t <= maximumElementDiameter ts /\
     exists d, minimumElementDiameter ts = Some d /\ d <= elementDiameter t) /\
  (forall p q r, In (p, q, r) ts ->
     dist q p <= elementDiameter (p, q, r) /\ dist r p <= elementDiameter (p, q, r) /\ dist q r <= elementDiameter (p, q, r)).
Proof.
  intros ts Hne Hnd.
  assert (S : forall p q r, In (p, q, r) ts ->
     dist q p <= elementDiameter (p, q, r) /\ dist r p <= elementDiameter (p, q, r) /\ dist q r <= elementDiameter (p, q, r)).
  { intros p q r H. exact (sides_le_diameter p q r (Hnd _ H)). }
  destruct (min_diameter_spec ts) as [_ Hm]. destruct (Hm Hne) as (t & Ht & Et & Hmin). split; [|split; [|split]].
  - apply max_diameter_attained; [|exact Hne]. intros [[p q] r] H. destruct (S p q r H) as (A & _).
    eapply Rle_trans; [|exact A]. apply sqrt_pos.
  - exists t. auto.
  - intros s Hs. split; [now apply max_diameter_ge|]. exists (elementDiameter t). split; [exact Et|now apply Hmin].
  - exact S.
Qed.
Print Assumptions C63_element_diameters.

Example C62_instance : nondegenerate ((0,0,0), (1,0,0), (0,1,0)) /\
  ple (0,0,0) (centroid ((0,0,0), (1,0,0), (0,1,0))) /\ ple (centroid ((0,0,0), (1,0,0), (0,1,0))) (1,1,1) /\
  inTriangle ((0,0,0), (1,0,0), (0,1,0)) (1/2, 1/4, 0).
Proof.
  split; [|split; [|split]].
  - unfold nondegenerate, norm, cross, vsub, px, py, pz. cbn [fst snd]. apply sqrt_lt_R0. lra.
  - unfold ple, px, py, pz. cbn. lra.
  - unfold ple, px, py, pz. cbn. lra.
  - exists (1/4), (1/2), (1/4). repeat (split; [lra|]). unfold px, py, pz. cbn [fst snd]. f_equal; [f_equal|]; lra.
Qed.
