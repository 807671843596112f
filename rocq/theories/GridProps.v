(** C22, C23, C28, C66: triangle grids. *)
From Coq Require Import List Arith Bool Lia Reals Lra.
Import ListNotations.
From Verif Require Import Base BoxModel BoxSpec FmmGeomModel GridModel GridSpec GridProofs GridGeomModel GridGeomProofs.

(** C22. For any triangle list over nn nodes the container is built; edges have no
    repetition and no unused entry, side i of an element gets an edge with that side's end
    nodes, and two sides get the same edge iff they have the same two nodes. *)
Theorem C22_edge_numbering :
  forall base nn es, Forall (nodesBelow nn) es ->
  exists c, init base nn es = Some c /\ length (c_e2e c) = length es /\
   NoDup (c_edges c) /\
   (forall k e t i, i < 3 -> nth_error es k = Some e -> nth_error (c_e2e c) k = Some t ->
      exists ed, nth_error (c_edges c) (enode t i) = Some ed /\ sameEnds ed (sideNodes e i)) /\
   (forall k e t i k' e' t' i', i < 3 -> i' < 3 ->
      nth_error es k = Some e -> nth_error (c_e2e c) k = Some t ->
      nth_error es k' = Some e' -> nth_error (c_e2e c) k' = Some t' ->
      (enode t i = enode t' i' <-> sameEnds (sideNodes e i) (sideNodes e' i'))) /\
   (forall j, j < length (c_edges c) -> exists k t i, nth_error (c_e2e c) k = Some t /\ i < 3 /\ enode t i = j).
Proof.
  intros base nn es Hb. destruct (init_ok base nn es Hb) as (c & Ei & _ & _ & El & Hnd & Hn & Hm & _).
  exists c. split; [exact Ei|]. split; [exact El|]. split; [exact Hnd|]. split; [|split].
  - intros k e t i Hi He Ht. exists (sideOrd e i). split; [now apply (Hn k)|now apply sideOrd_side].
  - intros k e t i k' e' t' i' Hi Hi' He Ht He' Ht'. rewrite <- sideOrd_inj by assumption.
    pose proof (Hn _ _ _ _ Hi He Ht) as A. pose proof (Hn _ _ _ _ Hi' He' Ht') as B. split.
    + intros E. rewrite E in A. congruence.
    + intros E. rewrite E in A.
      assert (L : enode t i < length (c_edges c)) by (apply nth_error_Some; congruence).
      apply (proj1 (NoDup_nth_error (c_edges c)) Hnd _ _ L). congruence.
  - intros j Hj. destruct (nth_error (c_edges c) j) as [ed|] eqn:Ej; [|apply nth_error_None in Ej; lia].
    destruct (proj1 (Hm ed) (nth_error_In _ _ Ej)) as (e & i & He & Hi & ->).
    apply In_nth_error in He. destruct He as (k & He).
    destruct (nth_error (c_e2e c) k) as [t|] eqn:Et.
    2:{ apply nth_error_None in Et. assert (k < length es) by (apply nth_error_Some; congruence). lia. }
    exists k, t, i. split; [exact Et|]. split; [exact Hi|].
    pose proof (Hn _ _ _ _ Hi He Et) as A.
    assert (L : enode t i < length (c_edges c)) by (apply nth_error_Some; congruence).
    apply (proj1 (NoDup_nth_error (c_edges c)) Hnd _ _ L). congruence.
Qed.
Print Assumptions C22_edge_numbering.

(** C22. The connectivity lists are the inverse relations, in increasing order. *)
Theorem C22_adjacency_lists :
  forall base nn es c, Forall (nodesBelow nn) es -> init base nn es = Some c ->
   (forall j k, In k (c_edge2Elements c j) <-> exists t i, nth_error (c_e2e c) k = Some t /\ i < 3 /\ enode t i = j) /\
   (forall n k, In k (c_node2Elements c n) <-> exists e i, nth_error es k = Some e /\ i < 3 /\ enode e i = n) /\
   (forall n j, In j (c_node2Edges c n) <-> exists ed, nth_error (c_edges c) j = Some ed /\ (fst ed = n \/ snd ed = n)) /\
   (forall j, nondecr (c_edge2Elements c j)) /\ (forall n, nondecr (c_node2Elements c n)) /\
   (forall n, nondecr (c_node2Edges c n)).
Proof.
  intros base nn es c Hb Hi. destruct (init_ok base nn es Hb) as (c' & Ei & _ & _ & _ & _ & _ & _ & E1 & E2 & E3 & _).
  rewrite Hi in Ei. inversion Ei; subst c'. rewrite E1, E2, E3.
  split; [intros j k; rewrite in_pushAll; apply in_pushes3|].
  split; [intros n k; rewrite in_pushAll; apply in_pushes3|].
  split; [intros n k; rewrite in_pushAll; apply in_pushes2|].
  split; [|split]; intros j; apply pushes_nondecr; intros p q H.
  - apply in_map_iff in H. destruct H as (? & <- & _). reflexivity.
  - apply in_map_iff in H. destruct H as (? & <- & _). reflexivity.
  - destruct H as [<-|[<-|[]]]; reflexivity.
Qed.
Print Assumptions C22_adjacency_lists.

(** C66. Entity ids: nodes, elements, edges get consecutive ids; ids are unique across
    entity kinds, and the counter is left behind the last id. *)
Theorem C66_ids_unique :
  forall base nn es c, Forall (nodesBelow nn) es -> init base nn es = Some c ->
  let ids := c_nodeIds c ++ c_elementIds c ++ c_edgeIds c in
  NoDup ids /\ (forall x, In x ids <-> base <= x < c_idCounter c) /\
  length (c_nodeIds c) = nn /\ length (c_elementIds c) = length es /\ length (c_edgeIds c) = length (c_edges c).
Proof.
  intros base nn es c Hb Hi. destruct (init_ok base nn es Hb) as (c' & Ei & _ & _ & _ & _ & _ & _ & _ & _ & _ & E & L1 & L2 & L3 & Ec).
  rewrite Hi in Ei. inversion Ei; subst c'. cbn zeta. rewrite E. split; [apply seq_NoDup|].
  split; [|auto]. intros x. rewrite in_seq, Ec. lia.
Qed.
Print Assumptions C66_ids_unique.

Definition twoTriangles : list elt := [(0, 1, 2); (2, 1, 3)].
Example C22_instance :
  option_map (fun c => (c_edges c, c_e2e c, c_edge2Elements c 2, c_node2Elements c 1)) (init 0 4 twoTriangles)
  = Some ([(1, 0); (2, 0); (2, 1); (3, 2); (3, 1)], [(0, 1, 2); (2, 3, 4)], [0; 1], [0; 1]).
Proof. vm_compute. reflexivity. Qed.

(** C23. 6 sons per father: the six sons of a father, spelled out: (node, side midpoint, barycentre) in the
    father's orientation *)
Theorem C23_sons :
  forall base nn es c, Forall (nodesBelow nn) es -> init base nn es = Some c ->
  let V := nn in let E := length (c_edges c) in
  length (barycentricElements c) = 6 * length es /\
  forall f v e, nth_error es f = Some v -> nth_error (c_e2e c) f = Some e ->
    let g := V + E + f in
    let side01 := V + enode e 0 in let side02 := V + enode e 1 in let side12 := V + enode e 2 in
    map (fun s => nth_error (barycentricElements c) (6 * f + s)) [0; 1; 2; 3; 4; 5] =
    [ Some (enode v 0, g, side02); Some (enode v 0, side01, g);
      Some (enode v 1, g, side01); Some (enode v 1, side12, g);
      Some (enode v 2, g, side12); Some (enode v 2, side02, g) ].
Proof.
  intros base nn es c Hb Hi V E. destruct (init_ok base nn es Hb) as (c' & Ei & Ee & En & El & _).
  rewrite Hi in Ei. inversion Ei; subst c'. split.
  - rewrite bary_length, Ee; [reflexivity|now rewrite Ee].
  - intros f v e Hv He. rewrite <- Ee in Hv.
    assert (B : forall s, s < 6 -> nth_error (barycentricElements c) (6 * f + s) = nth_error (sons V E f v e) s).
    { intros s Hs. rewrite (bary_nth c f s v e); try assumption; [now rewrite En|now rewrite Ee]. }
    cbn [map]. rewrite !B by lia. reflexivity.
Qed.
Print Assumptions C23_sons.

(** C23. Vertex numbering: father nodes keep their numbers; the midpoint vertices of two
    father sides coincide iff the sides have the same end nodes; barycentre vertices,
    midpoint vertices and nodes are disjoint and lie below V + E + F; no son is repeated. *)
Theorem C23_vertices :
  forall base nn es c, Forall (nodesBelow nn) es -> init base nn es = Some c ->
  (forall t i, In t (barycentricElements c) -> i < 3 -> enode t i < nn + length (c_edges c) + length es) /\
  (forall k e t i k' e' t' i', i < 3 -> i' < 3 ->
      nth_error es k = Some e -> nth_error (c_e2e c) k = Some t ->
      nth_error es k' = Some e' -> nth_error (c_e2e c) k' = Some t' ->
      (nn + enode t i = nn + enode t' i' <-> sameEnds (sideNodes e i) (sideNodes e' i'))) /\
  (Forall distinctNodes es -> NoDup (barycentricElements c)).
Proof.
  intros base nn es c Hb Hi.
  destruct (C22_edge_numbering base nn es Hb) as (c' & Ei & El & Hnd & Hs & Heq & _).
  rewrite Hi in Ei. inversion Ei; subst c'; clear Ei.
  destruct (init_ok base nn es Hb) as (c' & Ei & Ee & En & _).
  rewrite Hi in Ei. inversion Ei; subst c'; clear Ei.
  assert (Hin : forall t, In t (barycentricElements c) -> exists f v e, nth_error es f = Some v /\
     nth_error (c_e2e c) f = Some e /\ In t (sons nn (length (c_edges c)) f v e)).
  { intros t Ht. unfold barycentricElements in Ht. apply in_flat_map in Ht. destruct Ht as ([f [v e]] & Hc & Ht).
    cbn [fst snd] in Ht. rewrite En in Ht. exists f, v, e. apply In_nth_error in Hc. destruct Hc as (j & Hc).
    rewrite !nth_error_combine, nth_error_seq in Hc. destruct (j <? length (c_elements c)); [|discriminate].
    destruct (nth_error (c_elements c) j) as [v'|] eqn:Ev; [|discriminate].
    destruct (nth_error (c_e2e c) j) as [e'|] eqn:Ee'; [|discriminate]. inversion Hc as [[H1 H2 H3]]. rewrite <- Ee. subst f v' e'. cbn [Nat.add] in *. auto. }
  split; [|split].
  - intros t i Ht Hi3. destruct (Hin t Ht) as (f & v & e & Hv & He & Hson).
    assert (Hf : f < length es) by (apply nth_error_Some; congruence).
    assert (Hbv : nodesBelow nn v) by (rewrite Forall_forall in Hb; apply Hb; eapply nth_error_In; exact Hv).
    destruct Hbv as (B0 & B1 & B2).
    assert (Hed : forall j, j < 3 -> enode e j < length (c_edges c)).
    { intros j Hj. destruct (Hs f v e j Hj Hv He) as (ed & Eed & _). apply nth_error_Some. congruence. }
    pose proof (Hed 0 ltac:(lia)). pose proof (Hed 1 ltac:(lia)). pose proof (Hed 2 ltac:(lia)).
    unfold sons in Hson. cbn [enode] in B0, B1, B2.
    destruct Hson as [<-|[<-|[<-|[<-|[<-|[<-|[]]]]]]]; destruct i as [|[|[|i]]]; try lia; cbn [enode fst snd] in *; lia.
  - intros k e t i k' e' t' i' H1 H2 H3 H4 H5 H6. rewrite <- (Heq k e t i k' e' t' i') by assumption. lia.
  - intros Hd.
    assert (Hle : length (c_e2e c) = length (c_elements c)) by (rewrite Ee; exact El).
    apply NoDup_nth_error. intros a b Ha Hab. rewrite bary_length in Ha by exact Hle.
    assert (Hb2 : b < 6 * length (c_elements c)).
    { rewrite <- bary_length by exact Hle. apply nth_error_Some. rewrite <- Hab. apply nth_error_Some. now rewrite bary_length. }
    assert (D : forall a, a < 6 * length (c_elements c) -> exists f s v e, a = 6 * f + s /\ s < 6 /\ nth_error es f = Some v /\
       nth_error (c_e2e c) f = Some e /\ nth_error (barycentricElements c) a = nth_error (sons nn (length (c_edges c)) f v e) s).
    { intros x Hx. pose proof (Nat.div_mod x 6 ltac:(lia)) as Ex. pose proof (Nat.mod_upper_bound x 6 ltac:(lia)).
      assert (Hf : x / 6 < length (c_elements c)) by (apply Nat.div_lt_upper_bound; lia).
      destruct (nth_error (c_elements c) (x / 6)) as [v|] eqn:Ev; [|apply nth_error_None in Ev; lia].
      destruct (nth_error (c_e2e c) (x / 6)) as [e|] eqn:Ew; [|apply nth_error_None in Ew; lia].
      exists (x / 6), (x mod 6), v, e. split; [exact Ex|]. split; [assumption|]. rewrite <- Ee. split; [exact Ev|]. split; [exact Ew|].
      rewrite Ex at 1. rewrite (bary_nth c (x / 6) (x mod 6) v e); try assumption. now rewrite En. }
    destruct (D a Ha) as (f & s & v & e & -> & Hs6 & Hv & He & Ea). destruct (D b Hb2) as (f' & s' & v' & e' & -> & Hs6' & Hv' & He' & Eb).
    rewrite Ea, Eb in Hab.
    assert (Hdv : forall f v, nth_error es f = Some v -> distinctNodes v /\ nodesBelow nn v).
    { intros g w Hw. rewrite Forall_forall in Hd, Hb. split; [apply Hd|apply Hb]; eapply nth_error_In; exact Hw. }
    destruct (Hdv f v Hv) as [(D1 & D2 & D3) (B0 & B1 & B2)]. destruct (Hdv f' v' Hv') as [_ (B0' & B1' & B2')].
    assert (Hed : forall f v e j, j < 3 -> nth_error es f = Some v -> nth_error (c_e2e c) f = Some e -> enode e j < length (c_edges c)).
    { intros g w x j Hj Hw Hx. destruct (Hs g w x j Hj Hw Hx) as (ed & Eed & _). apply nth_error_Some. congruence. }
    pose proof (Hed f v e 0 ltac:(lia) Hv He). pose proof (Hed f v e 1 ltac:(lia) Hv He). pose proof (Hed f v e 2 ltac:(lia) Hv He).
    pose proof (Hed f' v' e' 0 ltac:(lia) Hv' He'). pose proof (Hed f' v' e' 1 ltac:(lia) Hv' He'). pose proof (Hed f' v' e' 2 ltac:(lia) Hv' He').
    cbn [enode] in *.
    assert (Hff : f = f').
    { destruct s as [|[|[|[|[|[|s]]]]]]; try lia; destruct s' as [|[|[|[|[|[|s']]]]]]; try lia;
      cbn [sons nth_error enode] in Hab; inversion Hab; lia. }
    subst f'. assert (v' = v) by congruence. assert (e' = e) by congruence. subst v' e'.
    f_equal. cbn [enode] in *.
    destruct s as [|[|[|[|[|[|s]]]]]]; try lia; destruct s' as [|[|[|[|[|[|s']]]]]]; try lia; try reflexivity;
    cbn [sons nth_error enode] in Hab; inversion Hab; try congruence; lia.
Qed.
Print Assumptions C23_vertices.

(** C23. Geometry: every son's corner vertices have positions, and its (doubled) vector
    area is one sixth of the father's: same plane, same orientation, equal areas adding
    up to the father's. *)
Theorem C23_sons_orientation_area :
  forall base nn es c (P : nat -> point) f s v, Forall (nodesBelow nn) es -> init base nn es = Some c ->
  nth_error es f = Some v -> s < 6 ->
  exists t p q r, nth_error (barycentricElements c) (6 * f + s) = Some t /\
    baryVertex c P (enode t 0) = Some p /\ baryVertex c P (enode t 1) = Some q /\ baryVertex c P (enode t 2) = Some r /\
    normal p q r = scale (1 / 6) (normal (P (enode v 0)) (P (enode v 1)) (P (enode v 2))).
Proof. exact bary_normals. Qed.
Print Assumptions C23_sons_orientation_area.

(** C23. The son map: for every numbering of the refined grid's elements (a bijection
    from element index to insertion index) entry (f, s) is the index of the element
    inserted as column 6 f + s. *)
Theorem C23_son_map :
  forall n ins f s, f < n -> s < 6 ->
  (forall i j, i < 6 * n -> j < 6 * n -> ins i = ins j -> i = j) ->
  (forall i, i < 6 * n -> exists j, j < 6 * n /\ ins j = i) ->
  exists j, sonMap (6 * n) ins f s = Some j /\ j < 6 * n /\ ins j = 6 * f + s.
Proof.
  intros n ins f s Hf Hs Hinj Hsur. unfold sonMap. rewrite sonMap_spec; [|intros i j Hi Hj; apply in_seq in Hi, Hj; apply Hinj; lia|exact Hs].
  destruct (find (fun j => ins j =? 6 * f + s) (seq 0 (6 * n))) as [j|] eqn:E.
  - apply find_some in E. destruct E as [H1 H2]. apply in_seq in H1. apply Nat.eqb_eq in H2. exists j. split; [reflexivity|]. split; [lia|exact H2].
  - destruct (Hsur (6 * f + s)) as (j & Hj & Ej); [lia|].
    pose proof (find_none _ _ E j) as N. cbn beta in N. rewrite Ej, Nat.eqb_refl in N. discriminate N. apply in_seq. lia.
Qed.
Print Assumptions C23_son_map.
(** C23. Each of the six sons of element f is inserted with the domain index of f. *)
Theorem C23_son_domains :
  forall domains, length (barycentricDomains domains) = 6 * length domains /\
    forall f s d, s < 6 -> nth_error domains f = Some d -> nth_error (barycentricDomains domains) (6 * f + s) = Some d.
Proof.
  induction domains as [|d0 l (L & IH)]; [split; [reflexivity|intros [|f]; discriminate]|].
  unfold barycentricDomains in *. cbn [flat_map]. split.
  - rewrite app_length, repeat_length, L. cbn [length]. lia.
  - intros [|f] s d Hs E.
    + injection E as <-. rewrite nth_error_app1 by (rewrite repeat_length; lia).
      do 6 (destruct s as [|s]; [reflexivity|]). lia.
    + cbn [nth_error] in E. rewrite nth_error_app2; rewrite repeat_length; [|lia].
      replace (6 * S f + s - 6) with (6 * f + s) by lia. apply IH; auto.
Qed.
Print Assumptions C23_son_domains.
Example C23_instance :
  option_map barycentricElements (init 0 4 twoTriangles) =
  Some [(0,9,5);(0,4,9);(1,9,4);(1,6,9);(2,9,6);(2,5,9);(2,10,7);(2,6,10);(1,10,6);(1,8,10);(3,10,8);(3,7,10)].
Proof. vm_compute. reflexivity. Qed.

(** C67. Domain indices given in insertion order end up at the grid's element indices. *)
Theorem C67_domain_indices_permuted :
  forall dom order,
  (forall i j, In (i, j) order -> i < length dom /\ j < length dom) -> NoDup (map fst order) ->
  exists r, permuteInsertionDomainIndices dom order = Some r /\ length r = length dom /\
    forall i j, In (i, j) order -> nth_error r i = nth_error dom j.
Proof.
  intros dom order Hb Hnd. destruct (permute_ok dom order (repeat 0 (length dom))) as (r & E & L & H & _).
  - rewrite repeat_length. exact Hb.
  - exact Hnd.
  - exists r. split; [exact E|]. rewrite repeat_length in L. auto.
Qed.
Print Assumptions C67_domain_indices_permuted.
Example C67_instance : permuteInsertionDomainIndices [7; 8; 9] [(2, 0); (0, 1); (1, 2)] = Some [8; 9; 7].
Proof. vm_compute. reflexivity. Qed.

(** C28. Vertices of a structured grid in lexicographic order, first index fastest. *)
Theorem C28_vertices :
  forall nx ny, length (structuredVertices nx ny) = (nx + 1) * (ny + 1) /\
  forall x y, x <= nx -> y <= ny -> nth_error (structuredVertices nx ny) (x + y * (nx + 1)) = Some (x, y).
Proof.
  intros nx ny. split; [apply miAll_length|]. intros x y Hx Hy. unfold structuredVertices.
  rewrite miAll_nth by nia. rewrite Nat.mod_add, Nat.div_add by lia. rewrite Nat.mod_small, Nat.div_small by lia. reflexivity.
Qed.
Print Assumptions C28_vertices.

(** C28. Triangles 2k, 2k+1 are the lower right and upper left half of cell
    (k mod nx, k / nx), both counterclockwise. *)
Theorem C28_triangles :
  forall nx ny, length (simplexElements nx ny) = 2 * (nx * ny) /\
  forall x y, x < nx -> y < ny ->
  let v i j := i + j * (nx + 1) in
  nth_error (simplexElements nx ny) (2 * (x + y * nx)) = Some (v x y, v (x + 1) y, v (x + 1) (y + 1)) /\
  nth_error (simplexElements nx ny) (2 * (x + y * nx) + 1) = Some (v x y, v (x + 1) (y + 1), v x (y + 1)).
Proof.
  intros nx ny. split; [apply simplex_length|]. intros x y Hx Hy v.
  assert (Q : forall r, r < 2 -> (2 * (x + y * nx) + r) / 2 = x + y * nx /\ (2 * (x + y * nx) + r) mod 2 = r).
  { intros r Hr. replace (2 * (x + y * nx) + r) with (r + (x + y * nx) * 2) by lia.
    rewrite Nat.div_add, Nat.mod_add by lia. rewrite Nat.div_small, Nat.mod_small by lia. lia. }
  destruct (Q 0) as [Q1 Q2]; [lia|]. destruct (Q 1) as [Q3 Q4]; [lia|]. rewrite Nat.add_0_r in Q1, Q2.
  split; rewrite triangles_nth by nia; [rewrite Q1, Q2|rewrite Q3, Q4];
  rewrite Nat.mod_add, Nat.div_add by lia; rewrite Nat.mod_small, Nat.div_small by lia; cbn [Nat.eqb]; unfold pt, v; reflexivity.
Qed.
Print Assumptions C28_triangles.

(** C28. Quadrilaterals of the cube grid. *)
Theorem C28_cubes :
  forall nx ny, length (cubeElements nx ny) = nx * ny /\
  forall x y, x < nx -> y < ny ->
  let v i j := i + j * (nx + 1) in
  nth_error (cubeElements nx ny) (x + y * nx) = Some [v x y; v (x + 1) y; v x (y + 1); v (x + 1) (y + 1)].
Proof.
  intros nx ny. unfold cubeElements. split; [now rewrite map_length, miAll_length|].
  intros x y Hx Hy. cbv zeta. rewrite nth_error_map, miAll_nth by nia.
  rewrite Nat.mod_add, Nat.div_add by lia. rewrite Nat.mod_small, Nat.div_small by lia.
  cbn [option_map unitOffsets fst snd map]. f_equal. do 3 (f_equal; [lia|]). f_equal. lia.
Qed.
Print Assumptions C28_cubes.

(** C28. Conforming and consistently oriented: an oriented side belongs to at most one
    triangle (so two triangles meeting in a side traverse it in opposite directions). *)
Theorem C28_consistent_orientation :
  forall nx ny t t' e e' i i', nth_error (simplexElements nx ny) t = Some e ->
  nth_error (simplexElements nx ny) t' = Some e' ->
  i < 3 -> i' < 3 ->
  nth_error (directedSides e) i = nth_error (directedSides e') i' -> t = t' /\ i = i'.
Proof.
  intros nx ny t t' e e' i i' Ht Ht' Hi Hi' Hs.
  assert (Lt : t < 2 * (nx * ny)) by (rewrite <- simplex_length; apply nth_error_Some; congruence).
  assert (Lt' : t' < 2 * (nx * ny)) by (rewrite <- simplex_length; apply nth_error_Some; congruence).
  assert (Hnx : 0 < nx) by nia.
  pose proof (triangles_nth nx ny t Hnx Lt) as T. pose proof (triangles_nth nx ny t' Hnx Lt') as T'. cbn zeta in T, T'.
  rewrite Ht in T. rewrite Ht' in T'.
  pose proof (Nat.mod_upper_bound (t / 2) nx ltac:(lia)) as Ux. pose proof (Nat.mod_upper_bound (t' / 2) nx ltac:(lia)) as Ux'.
  pose proof (Nat.div_mod (t / 2) nx ltac:(lia)) as Dt. pose proof (Nat.div_mod (t' / 2) nx ltac:(lia)) as Dt'.
  pose proof (Nat.div_mod t 2 ltac:(lia)) as Et. pose proof (Nat.div_mod t' 2 ltac:(lia)) as Et'.
  pose proof (Nat.mod_upper_bound t 2 ltac:(lia)) as M2. pose proof (Nat.mod_upper_bound t' 2 ltac:(lia)) as M2'.
  set (x := (t / 2) mod nx) in *. set (y := t / 2 / nx) in *. set (x' := (t' / 2) mod nx) in *. set (y' := t' / 2 / nx) in *.
  set (h := t / 2) in *. set (h' := t' / 2) in *. set (r := t mod 2) in *. set (r' := t' mod 2) in *.
  clearbody x y x' y' h h' r r'. subst t t' h h'.
  assert (G : x = x' /\ y = y' /\ r = r' /\ i = i').
  { destruct r as [|[|r]]; try lia; destruct r' as [|[|r']]; try lia; cbn [Nat.eqb] in T, T'; inversion T; inversion T'; subst e e';
    destruct i as [|[|[|i]]]; try lia; destruct i' as [|[|[|i']]]; try lia;
    cbn [directedSides nth_error] in Hs; inversion Hs as [[H1 H2]];
    apply pt_inj in H1; try lia; apply pt_inj in H2; lia. }
  destruct G as (-> & -> & -> & ->). split; reflexivity.
Qed.
Print Assumptions C28_consistent_orientation.

(** C28. Geometry: the physical vertex positions span the rectangle, every triangle is
    counterclockwise with half the cell's area. *)
Theorem C28_positive_area :
  forall lx ly ux uy nx ny x y, 0 < nx -> 0 < ny ->
  let pos := structuredPosition lx ly ux uy nx ny in
  let cell := (((ux - lx) / INR nx) * ((uy - ly) / INR ny))%R in
  normal (pos (x, y)) (pos (x + 1, y)) (pos (x + 1, y + 1)) = (0, 0, cell)%R /\
  normal (pos (x, y)) (pos (x + 1, y + 1)) (pos (x, y + 1)) = (0, 0, cell)%R /\
  pos (0, 0) = (lx, ly, 0)%R /\ pos (nx, ny) = (ux, uy, 0)%R.
Proof.
  intros lx ly ux uy nx ny x y Hx Hy pos cell.
  assert (Nx : INR nx <> 0%R) by (apply not_0_INR; lia). assert (Ny : INR ny <> 0%R) by (apply not_0_INR; lia).
  unfold pos, structuredPosition, cell. rewrite !Nat.add_sub. cbn [fst snd].
  unfold normal, cross, vsub, px, py, pz. cbn [fst snd]. rewrite !plus_INR. cbn [INR].
  repeat match goal with |- _ /\ _ => split end; (apply f_equal2; [apply f_equal2|]); field; auto.
Qed.
Print Assumptions C28_positive_area.

(** C28. The triangles cover the lattice rectangle. *)
Theorem C28_cover :
  forall nx ny u v, 0 < nx -> 0 < ny -> (0 <= u <= INR nx)%R -> (0 <= v <= INR ny)%R ->
  exists t a b c p q r, nth_error (simplexElements nx ny) t = Some (a, b, c) /\
    nth_error (structuredVertices nx ny) a = Some p /\ nth_error (structuredVertices nx ny) b = Some q /\
    nth_error (structuredVertices nx ny) c = Some r /\
    inLattice (INR (fst p), INR (snd p)) (INR (fst q), INR (snd q)) (INR (fst r), INR (snd r)) u v.
Proof.
  intros nx ny u v Hx Hy Hu Hv.
  destruct (cell_exists nx u Hx Hu) as (k & Hk & Ku). destruct (cell_exists ny v Hy Hv) as (l & Hl & Lv).
  rewrite plus_INR in Ku, Lv. cbn [INR] in Ku, Lv.
  destruct (C28_triangles nx ny) as [_ T]. destruct (T k l Hk Hl) as [T0 T1].
  destruct (C28_vertices nx ny) as [_ W].
  assert (V00 := W k l ltac:(lia) ltac:(lia)). assert (V10 := W (k + 1) l ltac:(lia) ltac:(lia)).
  assert (V01 := W k (l + 1) ltac:(lia) ltac:(lia)). assert (V11 := W (k + 1) (l + 1) ltac:(lia) ltac:(lia)).
  destruct (unit_cell u v (INR k) (INR l) Ku Lv) as [H|H].
  - exists (2 * (k + l * nx)). do 6 eexists. split; [exact T0|]. split; [exact V00|]. split; [exact V10|]. split; [exact V11|].
    cbn [fst snd]. rewrite !plus_INR. exact H.
  - exists (2 * (k + l * nx) + 1). do 6 eexists. split; [exact T1|]. split; [exact V00|]. split; [exact V11|]. split; [exact V01|].
    cbn [fst snd]. rewrite !plus_INR. exact H.
Qed.
Print Assumptions C28_cover.
Example C28_instance : simplexElements 2 1 = [(0,1,4);(0,4,3);(1,2,5);(1,5,4)] /\ cubeElements 2 1 = [[0;1;3;4];[1;2;4;5]].
Proof. vm_compute. auto. Qed.
