(** C125-C127: spaces on the barycentric refinement. *)
From Coq Require Import Reals Lra.
From Verif Require Import Base ComplexR BoxModel GridModel GridSpec GridProofs GridProps GridGeomModel GridGeomProofs SegModel SegSpec SegProofs AsmModel AsmSpec
  SpaceModel SpaceSpec SpaceProofs SpaceProps PolyModel PolySpec PolyProps VecModel VecSpec VecProofs3 LagModel BaryModel BarySpec BaryProofs BaryProofs2 BaryProofs3 BaryProofs4.
Set Implicit Arguments.
Unset Strict Implicit.
Local Open Scope R_scope.

(** C125, geometry.  The sons that the refinement creates are the triangles [sonTri] of their father ... *)
Definition asVec (p : point) : vec := V (px p) (py p) (pz p).
Theorem C125_son_triangles base nn es c (P : nat -> point) f i v : Forall (nodesBelow nn) es -> init base nn es = Some c ->
  nth_error es f = Some v -> (i < 6)%nat ->
  exists t p q r, nth_error (barycentricElements c) (6 * f + i) = Some t /\
    baryVertex c P (enode t 0) = Some p /\ baryVertex c P (enode t 1) = Some q /\ baryVertex c P (enode t 2) = Some r /\
    Tri (asVec p) (asVec q) (asVec r) = sonTri (Tri (asVec (P (enode v 0))) (asVec (P (enode v 1))) (asVec (P (enode v 2)))) i.
Proof.
  intros Hb Hi Hv Hs. destruct (init_ok base nn es Hb) as (c' & Ei & Ee & En & El & _ & Hn & _).
  rewrite Hi in Ei. inversion Ei; subst c'; clear Ei.
  destruct (nth_error (c_e2e c) f) as [e|] eqn:He.
  2:{ apply nth_error_None in He. assert (f < length es)%nat by (apply nth_error_Some; congruence). lia. }
  assert (Hbv : nodesBelow nn v). { rewrite Forall_forall in Hb. apply Hb. eapply nth_error_In; exact Hv. }
  destruct Hbv as (B0 & B1 & B2).
  pose proof (baryVertex_node c P (enode v 0) ltac:(rewrite En; exact B0)) as V0.
  pose proof (baryVertex_node c P (enode v 1) ltac:(rewrite En; exact B1)) as V1.
  pose proof (baryVertex_node c P (enode v 2) ltac:(rewrite En; exact B2)) as V2.
  pose proof (baryVertex_edge c P _ _ (Hn f v e 0%nat ltac:(lia) Hv He)) as E0.
  pose proof (baryVertex_edge c P _ _ (Hn f v e 1%nat ltac:(lia) Hv He)) as E1.
  pose proof (baryVertex_edge c P _ _ (Hn f v e 2%nat ltac:(lia) Hv He)) as E2.
  unfold sideOrd in E0, E1, E2. rewrite midpoint_ord in E0, E1, E2. cbn [localEdgeNodes fst snd] in E0, E1, E2.
  pose proof (baryVertex_elt c P f v ltac:(rewrite Ee; exact Hv)) as B.
  rewrite <- Ee in Hv.
  pose proof (bary_nth c f i v e ltac:(now rewrite Ee, El) Hv He Hs) as Hson.
  rewrite Hson. unfold GridModel.sons. clear Hson.
  set (p0 := P (enode v 0)) in *. set (p1 := P (enode v 1)) in *. set (p2 := P (enode v 2)) in *. clearbody p0 p1 p2.
  destruct p0 as [[x0 y0] z0], p1 as [[x1 y1] z1], p2 as [[x2 y2] z2].
  destruct i as [|[|[|[|[|[|i]]]]]]; [| | | | | |lia]; cbn [nth_error];
  eexists _, _, _, _; (split; [reflexivity|]); cbn [enode fst snd].
  - split; [exact V0|]. split; [exact B|]. split; [exact E1|]. unfold midpoint, barycentre, asVec, sonTri, midpointOf, centreOf, px, py, pz. cbn. f_equal; f_equal; lra.
  - split; [exact V0|]. split; [exact E0|]. split; [exact B|]. unfold midpoint, barycentre, asVec, sonTri, midpointOf, centreOf, px, py, pz. cbn. f_equal; f_equal; lra.
  - split; [exact V1|]. split; [exact B|]. split; [exact E0|]. unfold midpoint, barycentre, asVec, sonTri, midpointOf, centreOf, px, py, pz. cbn. f_equal; f_equal; lra.
  - split; [exact V1|]. split; [exact E2|]. split; [exact B|]. unfold midpoint, barycentre, asVec, sonTri, midpointOf, centreOf, px, py, pz. cbn. f_equal; f_equal; lra.
  - split; [exact V2|]. split; [exact B|]. split; [exact E2|]. unfold midpoint, barycentre, asVec, sonTri, midpointOf, centreOf, px, py, pz. cbn. f_equal; f_equal; lra.
  - split; [exact V2|]. split; [exact E1|]. split; [exact B|]. unfold midpoint, barycentre, asVec, sonTri, midpointOf, centreOf, px, py, pz. cbn. f_equal; f_equal; lra.
Qed.
Print Assumptions C125_son_triangles.
(** ... they cover the father and nothing else, ... *)
Theorem C125_sons_cover T : proper T ->
  (forall i q, (i < 6)%nat -> inReference q -> exists q', inReference q' /\ sonPointIs T i q q' /\ forall q'', sonPointIs T i q q'' -> q'' = q') /\
  (forall q', inReference q' -> exists i q, (i < 6)%nat /\ inReference q /\ sonPointIs T i q q').
Proof.
  intro P. split.
  - intros i q Hi I. exists (sonPoint i q). split; [now apply sonPoint_reference|]. split; [now apply sonPoint_global|]. intros q'' H. now apply (sonPoint_unique P Hi).
  - intros q' I. destruct (sons_cover I) as (i & q & Hi & J & <-). exists i, q. split; [exact Hi|]. split; [exact J|]. now apply sonPoint_global.
Qed.
Print Assumptions C125_sons_cover.
(** ... and the son map numbers them from 0 to 6 n - 1, however the refined grid numbers its elements. *)
Theorem C125_son_map n ins :
  (forall i j, (i < 6 * n)%nat -> (j < 6 * n)%nat -> ins i = ins j -> i = j) ->
  (forall i, (i < 6 * n)%nat -> exists j, (j < 6 * n)%nat /\ ins j = i) ->
  sonNumbering (Z.of_nat n) (fun e i => match sonMap (6 * n) ins (Z.to_nat e) i with Some j => Z.of_nat j | None => (-1)%Z end).
Proof.
  intros A B. split.
  - intros e i R Hi. destruct (@C23_son_map n ins (Z.to_nat e) i) as (j & -> & L & _); auto; lia.
  - intros e i e' i' R Hi R' Hi'. destruct (@C23_son_map n ins (Z.to_nat e) i) as (j & -> & L & E); auto; [lia|].
    destruct (@C23_son_map n ins (Z.to_nat e') i') as (j' & -> & L' & E'); auto; [lia|]. intro Q. assert (j = j') by lia. subst j'. split; lia.
Qed.
Print Assumptions C125_son_map.

(** C125.  A function of the space B-P (B-DP) and the function of P (DP) of order 1 with the same coefficients take the same
    values at the same points. *)
Definition sameScalarFunctions (g : sgrid) (son : Z -> nat -> Z) (m : dofmap Rsr) (b : baryspace) : Prop :=
  globalDofCount (b_map b) = globalDofCount m /\ consistent (b_map b) /\ flatEnumerates (b_map b) /\
  forall pos u e T i q q', length u = globalDofCount m -> In e (g_elts g) -> cornersOf pos e = Some T -> proper T -> (i < 6)%nat ->
    sonPointIs T i q q' -> exists x, evaluateP1 m u e q' = Some x /\ evalBaryLinear b u (son (s_index e) i) q = Some x.
Theorem C125_linear g son : gridOk g -> triangular g -> sonNumbering (g_n0 g) son ->
  exists m b, p1Assign g (wholeGrid g) false = Some m /\ baryLinearSpace son g = Some b /\ sameScalarFunctions g son m b.
Proof.
  intros G T S. destruct (@linear_core g son G T S) as (m & b & A & B & C & D & E & F). exists m, b. split; [exact A|]. split; [exact B|].
  split; [exact C|]. split; [exact D|]. split; [exact E|]. intros pos u e Tr i q q' L I _ P Hi Q. rewrite (sonPoint_unique P Hi Q). now apply F.
Qed.
Print Assumptions C125_linear.
Theorem C125_discontinuous_linear g son ref elem : gridOk g -> triangulation g -> sonNumbering (g_n0 g) son -> ref = true \/ elem = true ->
  exists m b, polyDPAssign g (wholeGrid g) ref elem 1 = Some (m, Z.of_nat (flatLocalDofCount m)) /\ baryDiscLinearSpace son g = Some b /\ sameScalarFunctions g son m b.
Proof.
  intros G T S M. destruct (@disc_core g son ref elem G T S) as (m & b & A & B & C & D & E & F); [destruct M as [-> | ->]; auto using orb_true_r|].
  exists m, b. split; [exact A|]. split; [exact B|].
  split; [exact C|]. split; [exact D|]. split; [exact E|]. intros pos u e Tr i q q' L I _ P Hi Q. rewrite (sonPoint_unique P Hi Q). now apply F.
Qed.
Print Assumptions C125_discontinuous_linear.

(** C126.  The same for B-RT, B-RWG (len i: the factor of edge i, 1 for RT) and their rotated versions B-NC, B-SNC: proved for
    grids in which at most two triangles meet in an edge. *)
Definition sameVectorFunctions (g : sgrid) (son : Z -> nat -> Z) (m : dofmap Rsr) (b : baryspace) : Prop :=
  globalDofCount (b_map b) = globalDofCount m /\ consistent (b_map b) /\ flatEnumerates (b_map b) /\
  forall pos u e T i q q', length u = globalDofCount m -> In e (g_elts g) -> cornersOf pos e = Some T -> proper T -> (i < 6)%nat ->
    sonPointIs T i q q' ->
    (exists v, evaluateHdiv pos m u e q' = Some v /\ evalBaryHdiv b u (son (s_index e) i) (sonTri T i) q = Some v) /\
    (exists v, evaluateHcurl pos m u e q' = Some v /\ evalBaryHcurl b u (son (s_index e) i) (sonTri T i) q = Some v).
Theorem C126_vector_partial g son len : gridOk g -> triangles g -> (g_n0 g <= INT_MAX)%Z -> sonNumbering (g_n0 g) son -> manifold g ->
  exists m b, rwgSpace g len (wholeGrid g) = Some m /\ baryVectorSpace son g len = Some b /\ sameVectorFunctions g son m b.
Proof.
  intros G T IM S M. destruct (@vector_core g len G T IM son S M) as (m & b & A & B & C & D & E & F). exists m, b. split; [exact A|]. split; [exact B|].
  split; [exact C|]. split; [exact D|]. split; [exact E|]. intros pos u e Tr i q q' L I CT P Hi Q. rewrite (sonPoint_unique P Hi Q). now apply F.
Qed.
Print Assumptions C126_vector_partial.
(** Three triangles at one edge: the coarse space has a function on that edge, the space on the refinement has none. *)
Definition plainSon (e : Z) (i : nat) : Z := (6 * e + Z.of_nat i)%Z.
Lemma plainSon_ok n : sonNumbering n plainSon.
Proof. unfold plainSon. split; intros; lia. Qed.
Theorem C126_vector_refuted : exists g son len, gridOk g /\ triangles g /\ (g_n0 g <= INT_MAX)%Z /\ sonNumbering (g_n0 g) son /\
  exists m b, rwgSpace g len (wholeGrid g) = Some m /\ baryVectorSpace son g len = Some b /\ globalDofCount m = 1%nat /\ globalDofCount (b_map b) = 0%nat.
Proof.
  exists fan, plainSon, (fun _ => 1). split; [exact fan_ok|]. split; [exact fan_triangles|]. split; [vm_compute; discriminate|]. split; [apply plainSon_ok|].
  eexists. eexists. split; [lazy -[Ropp IZR]; reflexivity|]. split; [lazy -[Ropp IZR]; reflexivity|]. split; reflexivity.
Qed.
Print Assumptions C126_vector_refuted.

(** C127.  DUAL: one dof per vertex; the function with coefficients u has on the sons i of element e the coefficient of corner
    i / 2 of e, i.e. it is constant on each dual cell (the sons that touch the vertex).  Constants on the refinement: the
    coefficient of the father. *)
Theorem C127_dual_cells g son : gridOk g -> triangular g -> sonNumbering (g_n0 g) son ->
  exists b, dualSpace son g = Some b /\ globalDofCount (b_map b) = Z.to_nat (g_n2 g) /\ consistent (b_map b) /\ flatEnumerates (b_map b) /\
    forall u e i, length u = globalDofCount (b_map b) -> In e (g_elts g) -> (i < 6)%nat ->
      exists v x, nth_error (s_verts e) (i / 2) = Some v /\ nth_error u (Z.to_nat v) = Some x /\ evalConstant b u (son (s_index e) i) = Some x.
Proof.
  intros G T S. destruct (@dual_core g son G T S) as (b & A & B & C & D & _ & E). exists b. split; [exact A|]. split; [exact B|]. split; [exact C|]. split; [exact D|].
  intros u e i L. apply E. congruence.
Qed.
Print Assumptions C127_dual_cells.
(** the cell of vertex v is made of the sons that have v as first corner *)
Theorem C127_cells_touch_vertex T i : (i < 6)%nat -> c0 (sonTri T i) = match i / 2 with O => c0 T | S O => c1 T | _ => c2 T end%nat.
Proof. intro H. destruct i as [|[|[|[|[|[|i]]]]]]; try reflexivity. lia. Qed.
Print Assumptions C127_cells_touch_vertex.
Theorem C127_constants g son : gridOk g -> sonNumbering (g_n0 g) son ->
  exists b, baryConstantSpace son g = Some b /\ globalDofCount (b_map b) = length (g_elts g) /\ consistent (b_map b) /\ flatEnumerates (b_map b) /\
    forall u e i, length u = globalDofCount (b_map b) -> In e (g_elts g) -> (i < 6)%nat ->
      exists x, nth_error u (Z.to_nat (s_index e)) = Some x /\ evalConstant b u (son (s_index e) i) = Some x.
Proof.
  intros G S. destruct (@constants_core g son G S) as (b & A & B & C & D & _ & E). exists b. split; [exact A|]. split; [exact B|]. split; [exact C|]. split; [exact D|].
  intros u e i L I Hi. destruct (E u e i) as (v & x & Q & X & Y); auto; [congruence|]. injection Q as <-. eauto.
Qed.
Print Assumptions C127_constants.

(** ---- cases ---- *)
Example c125_case : gridOk twoTriangles /\ triangulation twoTriangles /\ triangular twoTriangles /\ triangles twoTriangles /\ manifold twoTri /\ gridOk twoTri /\ triangles twoTri /\
  sonNumbering (g_n0 twoTriangles) plainSon /\ sonNumbering (g_n0 twoTri) plainSon /\
  proper (Tri (V 0 0 0) (V 1 0 0) (V 0 1 0)) /\ sonPointIs (Tri (V 0 0 0) (V 1 0 0) (V 0 1 0)) 2 (1, 0) (1/3, 1/3).
Proof.
  split; [exact twoTriangles_ok|]. split; [exact twoTriangles_triangulation|]. split; [apply triangulation_triangular; exact twoTriangles_triangulation|].
  split; [apply triangulation_triangles; exact twoTriangles_triangulation|]. split; [exact twoTri_manifold|]. split; [exact twoTri_ok|]. split; [exact twoTri_triangles|].
  split; [apply plainSon_ok|]. split; [apply plainSon_ok|]. split.
  - unfold proper, cross, vzero, vsub. cbn. intro E. injection E as E. lra.
  - unfold sonPointIs, globalPoint, sonTri, vadd, vsub, vscale, centreOf, midpointOf. cbn. f_equal; lra.
Qed.
