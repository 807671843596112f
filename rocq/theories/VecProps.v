(** C105-C108: normals, surface derivatives and conformity of the vector-valued spaces. *)
From Coq Require Import Reals Lra Lia.
From Verif Require Import Base ComplexR SegModel SegSpec SegProofs AsmModel SpaceModel SpaceSpec SpaceProofs SpaceRwgProofs SpaceProps PolySpec PolyProps VecModel VecSpec VecProofs VecProofs2 VecProofs3 VecProofs4.
Set Implicit Arguments.
Unset Strict Implicit.
Local Open Scope R_scope.

(** every side of a proper triangle has an outward conormal *)
Theorem C105_conormal_exists T k : proper T -> (k < 3)%nat -> exists nu, outward T k nu.
Proof. intros P K. eexists. now apply conormal. Qed.
Print Assumptions C105_conormal_exists.

(** C105.  Functions of the Raviart-Thomas and RWG spaces: the normal components from the two
    sides of an edge cancel; they vanish on edges that are not in the segment or belong to
    one element only. *)
Definition divConforming (g : sgrid) (pos : Z -> vec) (s : segment) (m : dofmap Rsr) : Prop :=
  forall u, length u = globalDofCount m ->
  forall e T k i q nu, In e (g_elts g) -> cornersOf pos e = Some T -> sideIs e k i -> onSide k q -> outward T k nu ->
  exists v, evaluateHdiv pos m u e q = Some v /\
    (~ holds s 1 i \/ length (sidesOn g i) <> 2%nat -> dot v nu = 0) /\
    forall e' T' k' q' nu', In e' (g_elts g) -> cornersOf pos e' = Some T' -> sideIs e' k' i -> (s_index e', k') <> (s_index e, k) ->
      onSide k' q' -> outward T' k' nu' ->
      exists v', evaluateHdiv pos m u e' q' = Some v' /\ dot v nu + dot v' nu' = 0.

Lemma conforming g pos s len : gridOk g -> fits g s -> triangulation g -> properGrid g pos -> (g_n0 g <= INT_MAX)%Z ->
  (forall i, (length (sidesOn g i) <= 2)%nat) ->
  exists m, rwgSpace g len s = Some m /\ consistent m /\ divConforming g pos s m /\
   (forall e, In e (g_elts g) -> forall k, (k < 3)%nat -> exists w, dofWeight m (s_index e) k w) /\
   (* the normal component on side k of e, edge i *)
   (forall u d e T k i q nu, length u = globalDofCount m -> In e (g_elts g) -> cornersOf pos e = Some T -> sideIs e k i -> onSide k q -> outward T k nu ->
     globalDof m (s_index e) k (Z.of_nat d) -> exists v sign, evaluateHdiv pos m u e q = Some v /\ (sign = 1 \/ sign = -1) /\
       dot v nu = sign * nth d u 0 * len i / sideLength T k).
Proof.
  intros G F TR PG IM MF. destruct (rwg_local len G F TR IM MF) as (m & E & C & L1 & L2). exists m. split; [exact E|]. split; [exact C|].
  assert (KL : forall e k i, In e (g_elts g) -> sideIs e k i -> (k < 3)%nat).
  { intros e k i I S. destruct (triangulation_triangles TR I) as (L & _). assert (k < length (map fst (s_facets e)))%nat by (apply nth_error_Some; unfold sideIs in S; congruence). rewrite map_length in *. lia. }
  assert (WW : forall e, In e (g_elts g) -> forall k, (k < 3)%nat -> exists w, dofWeight m (s_index e) k w).
  { intros e I k K. destruct (side_ex TR I K) as (i & S). destruct (L1 e k i I S) as (d & w & _ & W & _). eauto. }
  split; [|split; [exact WW|]].
  - intros u LU e T k i q nu I CT S Q O. pose proof (KL _ _ _ I S) as K. destruct (L1 e k i I S) as (d & w & D & W & A & _).
    destruct (eval_flux C LU CT (PG e T I CT) (WW e I) K Q O D W) as (SL & v & EV & DV). exists v. split; [exact EV|]. split.
    + intros N. assert (coefficient u d = 0). { unfold coefficient. destruct (Z.leb_spec 0 d); [|reflexivity]. exfalso. apply A in H as (H1 & H2). tauto. }
      rewrite DV, H. unfold Rdiv. ring.
    + intros e' T' k' q' nu' I' CT' S' NE Q' O'. pose proof (KL _ _ _ I' S') as K'. destruct (L1 e' k' i I' S') as (d' & w' & D' & W' & A' & _).
      destruct (eval_flux C LU CT' (PG e' T' I' CT') (WW e' I') K' Q' O' D' W') as (SL' & v' & EV' & DV'). exists v'. split; [exact EV'|].
      destruct (L2 e k e' k' i d d' w w') as (DD & WN); auto. subst d'. rewrite DV, DV'. rewrite (side_length_same TR I I' CT CT' S S').
      unfold coefficient. destruct (Z.leb_spec 0 d) as [H|H]; [|unfold Rdiv; ring]. apply A in H as (H1 & _). rewrite (WN H1). unfold Rdiv. ring.
  - intros u d e T k i q nu LU I CT S Q O D. pose proof (KL _ _ _ I S) as K. destruct (L1 e k i I S) as (d' & w & D' & W & _ & SG).
    assert (d' = Z.of_nat d) by (destruct D as (? & ? & ?), D' as (? & ? & ?); congruence). subst d'.
    destruct (eval_flux C LU CT (PG e T I CT) (WW e I) K Q O D W) as (SL & v & EV & DV).
    assert (CO : coefficient u (Z.of_nat d) = nth d u 0). { unfold coefficient. destruct (Z.leb_spec 0 (Z.of_nat d)); [|lia]. now rewrite Nat2Z.id. }
    destruct SG as [-> | ->]; [exists v, 1|exists v, (-1)]; (split; [exact EV|]; split; [auto|]; rewrite DV, CO; unfold Rdiv; ring).
Qed.

Theorem C105_raviart_thomas_conforming g pos s : gridOk g -> fits g s -> triangulation g -> properGrid g pos -> (g_n0 g <= INT_MAX)%Z ->
  (forall i, (length (sidesOn g i) <= 2)%nat) ->
  exists m, rtSpace g s = Some m /\ divConforming g pos s m /\
    (* coefficient d is the total flux through the edge of dof d, up to the sign *)
    forall u d e T k i q nu, length u = globalDofCount m -> In e (g_elts g) -> cornersOf pos e = Some T -> sideIs e k i -> onSide k q -> outward T k nu ->
      attachedTo m d (s_index e, k) -> exists v sign, evaluateHdiv pos m u e q = Some v /\ (sign = 1 \/ sign = -1) /\
        dot v nu * sideLength T k = sign * nth d u 0.
Proof.
  intros G F TR PG IM MF. destruct (@conforming g pos s (fun _ => 1) G F TR PG IM MF) as (m & E & C & DC & W & FL).
  exists m. split; [exact E|]. split; [exact DC|]. intros u d e T k i q nu LU I CT S Q O (l & A & B).
  pose proof C as (_ & _ & C3). destruct (C3 d) as (l' & A' & _ & B'); [apply nth_error_Some; congruence|]. assert (l' = l) by congruence. subst l'. apply B' in B.
  destruct (FL u d e T k i q nu LU I CT S Q O B) as (v & sg & EV & SG & DV). exists v, sg. split; [exact EV|]. split; [exact SG|].
  assert (KL : (k < 3)%nat). { destruct (triangulation_triangles TR I) as (L & _). assert (k < length (map fst (s_facets e)))%nat by (apply nth_error_Some; unfold sideIs in S; congruence). rewrite map_length in *. lia. }
  destruct (sideLength_pos (PG e T I CT) KL) as (SL & _). rewrite DV. field. lra.
Qed.
Print Assumptions C105_raviart_thomas_conforming.
Theorem C105_rwg_conforming g pos s len : gridOk g -> fits g s -> triangulation g -> properGrid g pos -> (g_n0 g <= INT_MAX)%Z ->
  (forall i, (length (sidesOn g i) <= 2)%nat) -> edgeLengths g pos len ->
  exists m, rwgSpace g len s = Some m /\ divConforming g pos s m /\
    (* coefficient d is the normal component on the edge of dof d, up to the sign *)
    forall u d e T k i q nu, length u = globalDofCount m -> In e (g_elts g) -> cornersOf pos e = Some T -> sideIs e k i -> onSide k q -> outward T k nu ->
      attachedTo m d (s_index e, k) -> exists v sign, evaluateHdiv pos m u e q = Some v /\ (sign = 1 \/ sign = -1) /\
        dot v nu = sign * nth d u 0.
Proof.
  intros G F TR PG IM MF EL. destruct (@conforming g pos s len G F TR PG IM MF) as (m & E & C & DC & W & FL).
  exists m. split; [exact E|]. split; [exact DC|]. intros u d e T k i q nu LU I CT S Q O (l & A & B).
  pose proof C as (_ & _ & C3). destruct (C3 d) as (l' & A' & _ & B'); [apply nth_error_Some; congruence|]. assert (l' = l) by congruence. subst l'. apply B' in B.
  destruct (FL u d e T k i q nu LU I CT S Q O B) as (v & sg & EV & SG & DV). exists v, sg. split; [exact EV|]. split; [exact SG|].
  assert (KL : (k < 3)%nat). { destruct (triangulation_triangles TR I) as (L & _). assert (k < length (map fst (s_facets e)))%nat by (apply nth_error_Some; unfold sideIs in S; congruence). rewrite map_length in *. lia. }
  destruct (sideLength_pos (PG e T I CT) KL) as (SL & _). destruct (side_ends TR I CT S) as (a & b & X & LL). rewrite DV, LL, (EL e i a b I X). rewrite LL in SL. field. lra.
Qed.
Print Assumptions C105_rwg_conforming.

(** C106.  The divergence functor returns the divergence in the tangential plane, for any
    orthonormal basis (t1, t2) of it, of the transformed field. *)
Theorem C106_surface_divergence T r q d t1 t2 : proper T -> orthonormal T t1 t2 -> (forall c, (c < 2)%nat -> hasDerivatives (fun p => r p c) q (d c)) ->
  exists L1 L2, vderivative (fun p => hdivValue T (r p)) q t1 L1 /\ vderivative (fun p => hdivValue T (r p)) q t2 L2 /\
    surfaceDiv T d = dot L1 (tangent T (fst t1) (snd t1)) + dot L2 (tangent T (fst t2) (snd t2)).
Proof. intros P O H. now apply div_core. Qed.
Print Assumptions C106_surface_divergence.
Lemma derivative_affine a b c f q t l : (forall x y, f (x, y) = a + b * x + c * y) -> l = fst t * b + snd t * c -> derivative f q t l.
Proof.
  intros H ->. unfold derivative. intros eps Pe. exists (mkposreal 1 Rlt_0_1). intros h N _. rewrite !H.
  replace ((a + b * (fst q + (0 + h) * fst t) + c * (snd q + (0 + h) * snd t) - (a + b * (fst q + 0 * fst t) + c * (snd q + 0 * snd t))) / h - (fst t * b + snd t * c)) with 0 by (field; exact N).
  now rewrite Rabs_R0.
Qed.
Lemma rt_derivatives k q c : (c < 2)%nat -> hasDerivatives (fun p => rtValue k p c) q (rtDeriv k q c).
Proof.
  intros B t. unfold rtDeriv. destruct c as [|[|c]]; [| |lia]; cbn [Nat.eqb].
  - destruct k as [|[|k]]; [apply (@derivative_affine 0 1 0)|apply (@derivative_affine (-1) 1 0)|apply (@derivative_affine 0 1 0)]; try (intros x y; cbn [rtValue]; ring); ring.
  - destruct k as [|[|k]]; [apply (@derivative_affine (-1) 0 1)|apply (@derivative_affine 0 0 1)|apply (@derivative_affine 0 0 1)]; try (intros x y; cbn [rtValue]; ring); ring.
Qed.
(** Raviart-Thomas functions: divergence 2 / integration element, i.e. 1 / area, so that the flux
    1 through one side (C105) and the integral of the divergence agree *)
Theorem C106_divergence_of_basis T k q t1 t2 : proper T -> orthonormal T t1 t2 ->
  exists L1 L2, vderivative (fun p => hdivValue T (rtValue k p)) q t1 L1 /\ vderivative (fun p => hdivValue T (rtValue k p)) q t2 L2 /\
    surfaceDiv T (rtDeriv k q) = dot L1 (tangent T (fst t1) (snd t1)) + dot L2 (tangent T (fst t2) (snd t2)) /\
    surfaceDiv T (rtDeriv k q) * (sqrt (dot (cross (vsub (c1 T) (c0 T)) (vsub (c2 T) (c0 T))) (cross (vsub (c1 T) (c0 T)) (vsub (c2 T) (c0 T)))) / 2) = 1.
Proof.
  intros P O. destruct (@C106_surface_divergence T (rtValue k) q (rtDeriv k q) t1 t2 P O) as (L1 & L2 & A & B & E); [intros c H; now apply rt_derivatives|].
  exists L1, L2. split; [exact A|]. split; [exact B|]. split; [exact E|].
  change (vsub (c1 T) (c0 T)) with (jt T 0). change (vsub (c2 T) (c0 T)) with (jt T 1). rewrite <- (gram_cross T). fold (integrationElement T).
  unfold surfaceDiv, rtDeriv. cbn [Nat.eqb]. assert (I := ie_pos P). field. lra.
Qed.
Print Assumptions C106_divergence_of_basis.

(** C107.  Functions of the Nedelec spaces are the Raviart-Thomas (RWG) functions with the same
    coefficients, turned by the normal; tangential components agree across an edge of two
    elements with the same orientation. *)
Definition curlConforming (g : sgrid) (pos : Z -> vec) (s : segment) (m : dofmap Rsr) : Prop :=
  forall u, length u = globalDofCount m ->
  forall e T k i q t, In e (g_elts g) -> cornersOf pos e = Some T -> sideIs e k i -> onSide k q -> along T k t ->
  exists v, evaluateHcurl pos m u e q = Some v /\
    (exists w, evaluateHdiv pos m u e q = Some w /\ v = cross (normal T) w) /\
    (~ holds s 1 i \/ length (sidesOn g i) <> 2%nat -> dot v t = 0) /\
    forall e' T' k' q', In e' (g_elts g) -> cornersOf pos e' = Some T' -> sideIs e' k' i -> (s_index e', k') <> (s_index e, k) ->
      onSide k' q' -> sideFrom T' k' = sideTo T k -> sideTo T' k' = sideFrom T k ->
      exists v', evaluateHcurl pos m u e' q' = Some v' /\ dot v t = dot v' t.
Theorem C107_nedelec_conforming g pos s len : gridOk g -> fits g s -> triangulation g -> properGrid g pos -> (g_n0 g <= INT_MAX)%Z ->
  (forall i, (length (sidesOn g i) <= 2)%nat) ->
  exists m, rwgSpace g len s = Some m /\ curlConforming g pos s m.
Proof.
  intros G F TR PG IM MF. destruct (@conforming g pos s len G F TR PG IM MF) as (m & E & C & DC & W & FL). exists m. split; [exact E|].
  intros u LU e T k i q t I CT S Q A.
  assert (KL : forall e k, In e (g_elts g) -> sideIs e k i -> (k < 3)%nat).
  { clear -TR. intros e k I S. destruct (triangulation_triangles TR I) as (L & _). assert (k < length (map fst (s_facets e)))%nat by (apply nth_error_Some; unfold sideIs in S; congruence). rewrite map_length in *. lia. }
  pose proof (KL _ _ I S) as K. pose proof (PG e T I CT) as P.
  destruct (eval_hcurl q C LU CT P (W e I)) as (w & EW & EC). exists (cross (normal T) w). split; [exact EC|]. split; [eauto|].
  unfold along in A. destruct (DC u LU e T k i q _ I CT S Q (conormal P K)) as (w' & EW' & Z & N). assert (w' = w) by congruence. subst w'.
  rewrite <- A in Z, N. rewrite (@tangential T k t w K A). split; [exact Z|].
  intros e' T' k' q' I' CT' S' NE Q' F1 F2. pose proof (KL _ _ I' S') as K'. pose proof (PG e' T' I' CT') as P'.
  destruct (N e' T' k' q' _ I' CT' S' NE Q' (conormal P' K')) as (v' & EV' & SUM).
  destruct (eval_hcurl q' C LU CT' P' (W e' I')) as (w' & EW1 & EC1). assert (w' = v') by congruence. subst w'. eexists. split; [exact EC1|].
  assert (T2 : vscale (/ sideLength T' k') (vsub (sideTo T' k') (sideFrom T' k')) = vscale (-1) t).
  { rewrite A. unfold sideLength. rewrite F1, F2, (dist_comm (sideTo T k)). apply vec_eq; unfold vscale, vsub; cbn [vx vy vz]; ring. }
  rewrite T2 in SUM. rewrite cross_scale_l, dot_scale_r in SUM. transitivity (dot v' (cross t (normal T'))); [lra|]. unfold dot, cross. cbn [vx vy vz]. ring.
Qed.
Print Assumptions C107_nedelec_conforming.
(** the curl functor returns the normal component of the curl: for an orthonormal right-handed
    basis (t1, t2) of the plane, d(F.t2)/dt1 - d(F.t1)/dt2 *)
Theorem C107_surface_curl_value T r q d t1 t2 : proper T -> orthonormal T t1 t2 -> rightHanded T t1 t2 ->
  (forall c, (c < 2)%nat -> hasDerivatives (fun p => r p c) q (d c)) ->
  exists L1 L2, vderivative (fun p => hcurlValue T (r p)) q t1 L1 /\ vderivative (fun p => hcurlValue T (r p)) q t2 L2 /\
    hcurlCurl T d = dot L1 (tangent T (fst t2) (snd t2)) - dot L2 (tangent T (fst t1) (snd t1)).
Proof. intros P O RH H. now apply curl_core. Qed.
Print Assumptions C107_surface_curl_value.
Theorem C107_curl_is_divergence T k q : proper T -> hcurlCurl T (ncDeriv k q) = surfaceDiv T (rtDeriv k q).
Proof. intros P. rewrite (hcurlCurl_eq P). unfold surfaceDiv, ncDeriv. f_equal. ring. Qed.
Print Assumptions C107_curl_is_divergence.

(** C108.  Normals have length one, are orthogonal to the element and follow the right-hand rule;
    the surface gradient is the tangential vector with the right directional derivatives; the
    surface curl is the gradient turned by the normal. *)
Theorem C108_normal T : proper T -> unitNormal T (normal T) /\ forall n, unitNormal T n -> n = normal T.
Proof. intros P. split; [now apply normal_unit|]. intros n. now apply unitNormal_unique. Qed.
Print Assumptions C108_normal.
Theorem C108_surface_gradient T f q d : proper T -> hasDerivatives f q d ->
  (forall t, derivative f q t (dot (surfaceGrad T d) (tangent T (fst t) (snd t)))) /\
  (forall n, unitNormal T n -> dot (surfaceGrad T d) n = 0 /\ surfaceCurl T d = cross n (surfaceGrad T d)).
Proof.
  intros P H. split.
  - intros t. rewrite (grad_tangent P). apply H.
  - intros n U. apply (unitNormal_unique P) in U. subst n. split; [now apply grad_normal|reflexivity].
Qed.
Print Assumptions C108_surface_gradient.

(** ---- cases ---- *)
(** every proper triangle has a right-handed orthonormal basis *)
Lemma basis_exists T : proper T -> exists t1 t2, orthonormal T t1 t2 /\ rightHanded T t1 t2.
Proof.
  intros P. assert (I := ie_pos P). assert (S := ie_sq P). assert (G := gram_pos P).
  destruct (@sideLength_pos T P 0 ltac:(lia)) as (L & LL). set (l := sideLength T 0) in *. change (vsub (sideTo T 0) (sideFrom T 0)) with (jt T 0) in LL.
  set (i := integrationElement T) in *. set (g01 := dot (jt T 0) (jt T 1)).
  assert (S' : i * i = l * l * dot (jt T 1) (jt T 1) - g01 * g01). { rewrite S, LL. unfold gramDet. reflexivity. }
  exists (/ l, 0), (- g01 / (l * i), l / i). unfold orthonormal, rightHanded. cbn [fst snd]. rewrite !(tangent_eq T).
  split; [|rewrite (normal_eq T); fold i; apply vec_eq; unfold cross, vadd, vscale; cbn [vx vy vz]; field; lra].
  rewrite !dot_add_l, !dot_add_r, !dot_scale_l, !dot_scale_r, (dot_comm (jt T 1) (jt T 0)), <- LL. fold g01.
  repeat split; [field; lra| |field; lra].
  replace (dot (jt T 1) (jt T 1)) with ((i * i + g01 * g01) / (l * l)) by (rewrite S'; field; lra). field. lra.
Qed.
(** two triangles in space with a common edge and the same orientation *)
Definition fold_pos (v : Z) : vec := match v with 0%Z => V 0 0 0 | 1%Z => V 1 0 0 | 2%Z => V 0 1 0 | _ => V 1 1 1 end.
Lemma fold_proper : properGrid twoTriangles fold_pos.
Proof.
  intros e T [<-|[<-|[]]] C; cbn in C; injection C as <-; unfold proper, cross, vsub, vzero; cbn [c0 c1 c2 vx vy vz fold_pos]; intros E; injection E as A B C; lra.
Qed.
Example c105_case : gridOk twoTriangles /\ fits twoTriangles (wholeGrid twoTriangles) /\ triangulation twoTriangles /\ properGrid twoTriangles fold_pos /\
  (g_n0 twoTriangles <= INT_MAX)%Z /\ sidesOn twoTriangles 2 = [(0%Z, 2%nat); (1%Z, 1%nat)] /\ holds (wholeGrid twoTriangles) 1 2 /\
  forall T T' e e', nth_error (g_elts twoTriangles) 0 = Some e -> nth_error (g_elts twoTriangles) 1 = Some e' ->
    cornersOf fold_pos e = Some T -> cornersOf fold_pos e' = Some T' -> sideFrom T' 1 = sideTo T 2 /\ sideTo T' 1 = sideFrom T 2.
Proof.
  split; [exact twoTriangles_ok|]. split; [apply whole_fits; intros [|[|[|]]] _; cbn; lia|]. split; [exact twoTriangles_triangulation|]. split; [exact fold_proper|].
  split; [vm_compute; discriminate|]. split; [reflexivity|]. split; [reflexivity|].
  intros T T' e e' A B C D. injection A as <-. injection B as <-. cbn in C, D. injection C as <-. injection D as <-. split; reflexivity.
Qed.
Lemma twoTriangles_manifold i : (length (sidesOn twoTriangles i) <= 2)%nat.
Proof.
  unfold sidesOn, twoTriangles. cbn [g_elts flat_map s_facets length seq map fst nth_error app].
  destruct (Z.eqb_spec 0 i), (Z.eqb_spec 1 i), (Z.eqb_spec 2 i), (Z.eqb_spec 3 i), (Z.eqb_spec 4 i); subst; try discriminate; try lia; cbn; lia.
Qed.
Definition fold_len (i : Z) : R :=
  match i with 0%Z => dist (fold_pos 0) (fold_pos 1) | 1%Z => dist (fold_pos 0) (fold_pos 2) | 2%Z => dist (fold_pos 1) (fold_pos 2)
  | 3%Z => dist (fold_pos 1) (fold_pos 3) | _ => dist (fold_pos 3) (fold_pos 2) end.
Example fold_lengths : edgeLengths twoTriangles fold_pos fold_len.
Proof. intros e i a b [<-|[<-|[]]] I; cbn in I; repeat (destruct I as [I|I]; [injection I as <- <- <-; reflexivity|]); destruct I. Qed.
