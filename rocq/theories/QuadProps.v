From Coq Require Import Reals ZArith List Lia Lra Permutation.
Import ListNotations.
From Verif Require Import Base ArrayModel QuadModel QuadSpec DuffyProofs DuffyZones TopoProofs QuadProofs QuadSum.
Set Implicit Arguments.

(** C45: the classification counts the common vertices *)
Theorem topology_classification : forall test trial, element test -> element trial ->
  let n := commonVertices test trial in
  match determineTopology test trial with
  | Ok t => testCount t = length test /\ trialCount t = length trial /\
    match t_type t with
    | Disjoint => n = 0 /\ testSV0 t = (-1)%Z /\ testSV1 t = (-1)%Z /\ trialSV0 t = (-1)%Z /\ trialSV1 t = (-1)%Z
    | SharedVertex => n = 1 /\ sameVertex test trial (testSV0 t) (trialSV0 t) /\ testSV1 t = (-1)%Z /\ trialSV1 t = (-1)%Z
    | SharedEdge => n = 2 /\ sameVertex test trial (testSV0 t) (trialSV0 t) /\ sameVertex test trial (testSV1 t) (trialSV1 t) /\
        testSV0 t <> testSV1 t /\ trialSV0 t <> trialSV1 t
    | Coincident => n = length test /\ n = length trial
    end
  | Throws => 3 <= n /\ ~ (n = length test /\ n = length trial)
  | Undefined => False
  end.
Proof.
  intros test trial [N L] [N' L'] n.
  assert (Ln : length (hits test trial) = n) by apply hits_length.
  assert (n <= length trial) by apply common_le.
  assert (I : forall i j, In (i, j) (hits test trial) -> sameVertex test trial (Z.of_nat i) (Z.of_nat j)) by (intros; now apply sameVertex_hit).
  assert (I2 : forall i j, In (i, j) (hits test trial) -> exists v, nth_error test i = Some v /\ nth_error trial j = Some v) by (intros i j H'; now apply hits_in).
  pose proof (hits_nodup test trial 0) as ND. fold (hits test trial) in ND.
  unfold determineTopology. cbv zeta.
  destruct (Nat.ltb_spec 4 (length (hits test trial))); [lia|].
  destruct (hits test trial) as [|[a b] [|[c d] [|e r]]] eqn:E; cbn [t_type testCount trialCount testSV0 testSV1 trialSV0 trialSV1].
  - cbn in Ln. repeat split; auto.
  - split; [reflexivity|]. split; [reflexivity|]. split; [now cbn in Ln|]. split; [apply I; now left|]. split; reflexivity.
  - split; [reflexivity|]. split; [reflexivity|]. split; [now cbn in Ln|]. split; [apply I; now left|]. split; [apply I; right; now left|].
    destruct (I2 a b (or_introl eq_refl)) as (v & A1 & A2). destruct (I2 c d (or_intror (or_introl eq_refl))) as (v' & B1 & B2).
    inversion ND as [|? ? NI _]; subst. split; intros X; apply Nat2Z.inj in X; subst.
    + assert (v = v') by congruence. subst. assert (b = d) by (eapply nodup_nth with (l := trial); eauto). subst. apply NI. now left.
    + assert (v = v') by congruence. subst. assert (a = c) by (eapply nodup_nth with (l := test); eauto). subst. apply NI. now left.
  - rewrite Ln. cbn in Ln. destruct (Nat.eqb_spec n (length test)), (Nat.eqb_spec n (length trial)); cbn [andb t_type testCount trialCount]; try (split; [lia|tauto]).
Qed.
(** ... and does not depend on which element is called test element *)
Theorem topology_symmetric : forall test trial, element test -> element trial ->
  match determineTopology test trial with
  | Ok t => exists t', determineTopology trial test = Ok t' /\ t_type t' = t_type t /\
     ((testSV0 t', trialSV0 t') = (trialSV0 t, testSV0 t) /\ (testSV1 t', trialSV1 t') = (trialSV1 t, testSV1 t) \/
      t_type t = SharedEdge /\ (testSV0 t', trialSV0 t') = (trialSV1 t, testSV1 t) /\ (testSV1 t', trialSV1 t') = (trialSV0 t, testSV0 t))
  | Throws => determineTopology trial test = Throws
  | Undefined => False
  end.
Proof.
  intros test trial [N L] [N' L'].
  pose proof (hits_swap N N') as P. pose proof (Permutation_length P) as PL. rewrite map_length in PL.
  assert (length (hits test trial) <= 4) by (unfold hits; rewrite hits_length; pose proof (common_le test trial); lia).
  unfold determineTopology. cbv zeta.
  destruct (Nat.ltb_spec 4 (length (hits test trial))); [lia|]. destruct (Nat.ltb_spec 4 (length (hits trial test))); [lia|].
  destruct (hits test trial) as [|[a b] [|[c d] [|e r]]] eqn:E.
  - apply Permutation_sym, Permutation_nil in P. rewrite P. eexists. split; [reflexivity|]. cbn. auto.
  - cbn [map fst snd] in P. apply Permutation_sym, Permutation_length_1_inv in P. rewrite P. eexists. split; [reflexivity|]. cbn. auto.
  - cbn [map fst snd] in P. apply Permutation_sym, Permutation_length_2_inv in P. destruct P as [P|P]; rewrite P; (eexists; split; [reflexivity|]); cbn; auto.
  - destruct (hits trial test) as [|h1 [|h2 [|h3 r']]]; try (cbn in PL; discriminate PL).
    rewrite PL. destruct (Nat.eqb_spec (length ((a, b) :: (c, d) :: e :: r)) (length test)), (Nat.eqb_spec (length ((a, b) :: (c, d) :: e :: r)) (length trial)); destruct h1, h2; cbn [andb]; try reflexivity.
    eexists. split; [reflexivity|]. cbn. auto.
Qed.
Example topology_edge : determineTopology [4; 7; 9]%Z [9; 2; 4]%Z = Ok (Topo SharedEdge 3 3 2 0 0 2).
Proof. reflexivity. Qed.
Example topology_throws : determineTopology [4; 7; 9; 8]%Z [9; 7; 4]%Z = Throws.
Proof. reflexivity. Qed.

Local Open Scope R_scope.
(** C47: the rule for two triangles.  The pair of points in every slot is the Duffy pair of that slot, with the
    corner (or edge) of the reference triangle carried to the vertices the two elements share *)
Theorem singular_rule_triangles : forall test trial t q, element test -> element trial -> length test = 3%nat -> length trial = 3%nat ->
  determineTopology test trial = Ok t -> t_type t <> Disjoint ->
  exists g sx sy a b w, fillDoubleSingular t q = Ok (a, b, w) /\ bijective3 sx /\ bijective3 sy /\
    match t_type t with
    | SharedVertex => g = VA /\ sameVertex test trial (sx 0%Z) (sy 0%Z)
    | SharedEdge => g = EA /\ sameVertex test trial (sx 0%Z) (sy 0%Z) /\ sameVertex test trial (sx 1%Z) (sy 1%Z)
    | _ => g = CO /\ forall k, sx k = k /\ sy k = k
    end /\
    let pc := length q in let n := (numRegions Triangle g * pc * pc)%nat in
    length a = n /\ length b = n /\ length w = n /\
    (forall c, (c < n)%nat -> exists r i j, (r < numRegions Triangle g)%nat /\ (i < pc)%nat /\ (j < pc)%nat /\ c = (i + j * pc + r * pc * pc)%nat) /\
    forall r i j, (r < numRegions Triangle g)%nat -> (i < pc)%nat -> (j < pc)%nat ->
      let c := (i + j * pc + r * pc * pc)%nat in
      exists z v x y, slot Triangle g q r i j z v /\
        nth_error a c = Some x /\ permuted sx (fst (rx z) - snd (rx z), snd (rx z)) x /\
        nth_error b c = Some y /\ permuted sy (fst (ry z) - snd (ry z), snd (ry z)) y /\ nth_error w c = Some v.
Proof.
  intros test trial t q E1 E2 L1 L2 D ND. pose proof (topology_classification E1 E2) as C. cbv zeta in C. rewrite D in C.
  destruct C as (C1 & C2 & C).
  assert (RG : forall i j, sameVertex test trial i j -> (0 <= i <= 2)%Z /\ (0 <= j <= 2)%Z).
  { intros i j (A & B & v & V1 & V2). assert (Z.to_nat i < length test)%nat by (apply nth_error_Some; congruence). assert (Z.to_nat j < length trial)%nat by (apply nth_error_Some; congruence). lia. }
  assert (GO : fillDoubleSingular t q = match t_type t with SharedVertex => fillSingular Triangle VA t q | SharedEdge => fillSingular Triangle EA t q | Coincident => fillSingular Triangle CO t q | Disjoint => Throws end).
  { unfold fillDoubleSingular. rewrite C1, C2, L1, L2. reflexivity. }
  rewrite GO. clear GO.
  destruct (t_type t) eqn:T; [congruence| | |].
  - destruct C as (_ & SV & _ & _). destruct (RG _ _ SV) as [R1 R2].
    destruct (raw_rule Triangle VA q) as (a & b & w & A & B & W & La & Lb & Lw & K).
    destruct (@remapVertex_ok _ a R1) as (ha & Ha & Pa). destruct (@remapVertex_ok _ b R2) as (hb & Hb & Pb).
    exists VA, (swapV (testSV0 t)), (swapV (trialSV0 t)), (map ha a), (map hb b), w.
    split. { unfold fillSingular. cbv zeta. rewrite A. cbn [bind]. rewrite B. cbn [bind]. rewrite W. cbn [bind]. rewrite Ha. cbn [bind]. now rewrite Hb. }
    split; [now apply swapV_bij|]. split; [now apply swapV_bij|]. split; [split; [reflexivity|exact SV]|].
    cbv zeta. rewrite !map_length. split; [exact La|]. split; [exact Lb|]. split; [exact Lw|]. split.
    + intros c Hc. destruct (column_surj _ _ Hc) as (r & i & j & X1 & X2 & X3 & <-). exists r, i, j. now repeat split.
    + intros r i j Hr Hi Hj. destruct (K r i j Hr Hi Hj) as (z & v & S1 & S2 & S3 & S4). unfold column in *; cbn [fst snd] in *.
      exists z, v, (ha (toDune Triangle (rx z))), (hb (toDune Triangle (ry z))).
      split; [exact S1|]. split; [now apply map_nth_error|]. split; [apply Pa|]. split; [now apply map_nth_error|]. split; [apply Pb|exact S4].
  - destruct C as (_ & SV & SV' & N1 & N2). destruct (RG _ _ SV) as [R1 R2]. destruct (RG _ _ SV') as [R1' R2'].
    destruct (raw_rule Triangle EA q) as (a & b & w & A & B & W & La & Lb & Lw & K).
    destruct (@remapEdge_ok _ _ a R1 R1' N1) as (ha & Ha & Pa). destruct (@remapEdge_ok _ _ b R2 R2' N2) as (hb & Hb & Pb).
    exists EA, (edgeV (testSV0 t) (testSV1 t)), (edgeV (trialSV0 t) (trialSV1 t)), (map ha a), (map hb b), w.
    split. { unfold fillSingular. cbv zeta. rewrite A. cbn [bind]. rewrite B. cbn [bind]. rewrite W. cbn [bind]. rewrite Ha. cbn [bind]. now rewrite Hb. }
    split; [now apply edgeV_bij|]. split; [now apply edgeV_bij|]. split; [split; [reflexivity|split; [exact SV|exact SV']]|].
    cbv zeta. rewrite !map_length. split; [exact La|]. split; [exact Lb|]. split; [exact Lw|]. split.
    + intros c Hc. destruct (column_surj _ _ Hc) as (r & i & j & X1 & X2 & X3 & <-). exists r, i, j. now repeat split.
    + intros r i j Hr Hi Hj. destruct (K r i j Hr Hi Hj) as (z & v & S1 & S2 & S3 & S4). unfold column in *; cbn [fst snd] in *.
      exists z, v, (ha (toDune Triangle (rx z))), (hb (toDune Triangle (ry z))).
      split; [exact S1|]. split; [now apply map_nth_error|]. split; [apply Pa|]. split; [now apply map_nth_error|]. split; [apply Pb|exact S4].
  - destruct (raw_rule Triangle CO q) as (a & b & w & A & B & W & La & Lb & Lw & K).
    exists CO, (fun k => k), (fun k => k), a, b, w.
    split. { unfold fillSingular. cbv zeta. rewrite A. cbn [bind]. rewrite B. cbn [bind]. now rewrite W. }
    split; [split; auto|]. split; [split; auto|]. split; [split; [reflexivity|now split]|].
    cbv zeta. split; [exact La|]. split; [exact Lb|]. split; [exact Lw|]. split.
    + intros c Hc. destruct (column_surj _ _ Hc) as (r & i & j & X1 & X2 & X3 & <-). exists r, i, j. now repeat split.
    + intros r i j Hr Hi Hj. destruct (K r i j Hr Hi Hj) as (z & v & S1 & S2 & S3 & S4). unfold column in *; cbn [fst snd] in *.
      exists z, v, (toDune Triangle (rx z)), (toDune Triangle (ry z)).
      split; [exact S1|]. split; [exact S2|]. split; [intros k _; reflexivity|]. split; [exact S3|]. split; [intros k _; reflexivity|exact S4].
Qed.
Lemma common_self test : commonVertices test test = length test.
Proof.
  unfold commonVertices. assert (X : forall l, incl l test -> length (filter (fun v => if in_dec Z.eq_dec v test then true else false) l) = length l).
  { induction l as [|v l IH]; intros I; [reflexivity|]. cbn. destruct (in_dec Z.eq_dec v test); [|exfalso; apply n, I; now left]. cbn. rewrite IH; [reflexivity|]. intros x Hx. apply I. now right. }
  apply X, incl_refl.
Qed.
(** two coincident quadrilaterals *)
Theorem singular_rule_quadrangle : forall test t q, element test -> length test = 4%nat ->
  determineTopology test test = Ok t ->
  exists a b w, fillDoubleSingular t q = Ok (a, b, w) /\
    let pc := length q in let n := (8 * pc * pc)%nat in
    length a = n /\ length b = n /\ length w = n /\
    forall r i j, (r < 8)%nat -> (i < pc)%nat -> (j < pc)%nat ->
      let c := (i + j * pc + r * pc * pc)%nat in
      exists z v, slot Quadrangle CO q r i j z v /\ nth_error a c = Some (rx z) /\ nth_error b c = Some (ry z) /\ nth_error w c = Some v.
Proof.
  intros test t q E L D. pose proof (topology_classification E E) as C. cbv zeta in C. rewrite D in C.
  destruct C as (C1 & C2 & C).
  pose proof (common_self test) as Cn.
  assert (T : t_type t = Coincident) by (destruct (t_type t); try reflexivity; exfalso; rewrite Cn in C; lia).
  destruct (raw_rule Quadrangle CO q) as (a & b & w & A & B & W & La & Lb & Lw & K).
  exists a, b, w. split. { unfold fillDoubleSingular. rewrite C1, C2, L, T. cbn [Nat.eqb andb]. unfold fillSingular. cbv zeta. rewrite A. cbn [bind]. rewrite B. cbn [bind]. now rewrite W. }
  cbv zeta. split; [exact La|]. split; [exact Lb|]. split; [exact Lw|]. intros r i j Hr Hi Hj. destruct (K r i j Hr Hi Hj) as (z & v & S1 & S2 & S3 & S4). exists z, v. now repeat split.
Qed.
(** every other request is rejected, never mis-evaluated *)
Theorem singular_rule_rejects : forall test trial t q, element test -> element trial ->
  determineTopology test trial = Ok t ->
  length test <> length trial \/ t_type t = Disjoint \/ length test = 4%nat /\ t_type t <> Coincident ->
  fillDoubleSingular t q = Throws.
Proof.
  intros test trial t q E E' D H. pose proof (topology_classification E E') as C. cbv zeta in C. rewrite D in C.
  destruct C as (C1 & C2 & C). destruct E as [_ L]. destruct E' as [_ L']. unfold fillDoubleSingular. rewrite C1, C2.
  destruct H as [H|[H|[H1 H2]]].
  - destruct L as [L|L], L' as [L'|L']; rewrite L, L'; try reflexivity; congruence.
  - rewrite H. destruct (_ && _)%bool; [reflexivity|]. destruct (_ && _)%bool; reflexivity.
  - rewrite H1. cbn [Nat.eqb andb]. destruct (Nat.eqb_spec (length trial) 4); [|reflexivity].
    destruct (t_type t); try reflexivity; [| |congruence].
    + destruct (raw_rule Quadrangle VA q) as (a & b & w & A & B & W & _). unfold fillSingular. cbv zeta. rewrite A. cbn [bind]. rewrite B. cbn [bind]. now rewrite W.
    + destruct (raw_rule Quadrangle EA q) as (a & b & w & A & B & W & _). unfold fillSingular. cbv zeta. rewrite A. cbn [bind]. rewrite B. cbn [bind]. now rewrite W.
Qed.
Example singular_rule_triangles_applies : element [4; 7; 9]%Z /\ element [9; 2; 4]%Z /\
  exists t, determineTopology [4; 7; 9]%Z [9; 2; 4]%Z = Ok t /\ t_type t = SharedEdge.
Proof.
  split; [|split]; [..|eexists; split; reflexivity]; (split; [|cbn; lia]);
  repeat (constructor; [cbn; lia|]); constructor.
Qed.

(** C85: the Duffy transformations.  The weight of a region is the modulus of the Jacobian determinant of the
    map from the parameter cube to the pair of points *)
Theorem duffy_jacobian : forall s g r p z, inCube p -> nth_error (transform s g p) r = Some z ->
  exists J : nat -> nat -> R,
   (forall a i, (a < 4)%nat -> (i < 4)%nat ->
     derivable_pt_lim (fun t => match nth_error (transform s g (setP i t p)) r with Some z' => coord a z' | None => 0 end) (getP i p) (J a i)) /\
   rw z = Rabs (det4 J).
Proof.
  intros s g r p z C H. exists (jac s g r p). split; [intros a i _ _; apply jac_partial|now apply jac_det].
Qed.
(** The regions are images of the cube that stay inside the element pair, do not overlap, and cover it *)
Theorem duffy_partition : forall s g,
  (forall r p z, inCube p -> nth_error (transform s g p) r = Some z -> interior s (rx z) /\ interior s (ry z)) /\
  forall x y, interior s x -> interior s y -> generic s g x y ->
   exists r p w, inCube p /\ nth_error (transform s g p) r = Some (Region x y w) /\
   forall r' p' w', inCube p' -> nth_error (transform s g p') r' = Some (Region x y w') -> r' = r /\ p' = p.
Proof.
  intros s g. split.
  - intros r p z C H. destruct (@image _ _ _ _ _ H C) as (A & B & _). now split.
  - intros x y Hx Hy G. destruct (@zones_cover s g x y Hx Hy G) as [r Z].
    destruct (@inv_right s g r x y Hx Hy Z) as [w E].
    exists r, (inv s g r x y), w. split; [now apply inv_cube|]. split; [exact E|].
    intros r' p' w' C H. destruct (@image _ _ _ _ _ H C) as (_ & _ & Z' & P). cbn [rx ry] in *.
    assert (r' = r) by (eapply zones_disjoint with (x := x) (y := y); eauto). subst. now split.
Qed.
(** consequence: with a tensor rule exact for cubics the weights sum to (area of the element)^2, i.e. constants are integrated exactly *)
Theorem duffy_total_weight : forall test trial t q a b w, element test -> element trial -> length test = 3%nat -> length trial = 3%nat ->
  determineTopology test trial = Ok t -> exactUpTo 3 q -> fillDoubleSingular t q = Ok (a, b, w) -> quadSum (fun v => v) w = / 2 * / 2.
Proof.
  intros test trial t q a b w E1 E2 L1 L2 D X H.
  assert (ND : t_type t <> Disjoint).
  { intros Y. rewrite (@singular_rule_rejects test trial t q E1 E2 D) in H; [discriminate|auto]. }
  destruct (@singular_rule_triangles _ _ _ q E1 E2 L1 L2 D ND) as (g & sx & sy & a' & b' & w' & F & _ & _ & _ & _ & _ & Lw & _ & K).
  assert (w = w') by congruence. subst w'.
  rewrite (@output_sum Triangle g q w Lw); [exact (@total_weight Triangle g q X)|].
  intros r i j Hr Hi Hj. destruct (K r i j Hr Hi Hj) as (z & v & x & y & S1 & _ & _ & _ & _ & S6). exists z, v. now split.
Qed.
Example duffy_generic_pair : interior Triangle (/ 2, / 4) /\ interior Triangle (/ 3, / 6) /\ generic Triangle CO (/ 2, / 4) (/ 3, / 6) /\ inCube (Param (/ 2) (/ 2) (/ 2) (/ 2)).
Proof. cbn. unfold inCube; cbn. lra. Qed.

(** C86: the kernel is never evaluated at coinciding points *)
Definition cornersOf (X : Z -> point3) (l : list Z) (k : Z) : point3 := match nth_error l (Z.to_nat k) with Some v => X v | None => (0, 0, 0) end.
Lemma bary_ext q q' : (forall k, (0 <= k <= 2)%Z -> bary k q = bary k q') -> q = q'.
Proof. destruct q as [x y], q' as [x' y']. intros H. pose proof (H 1%Z ltac:(lia)). pose proof (H 2%Z ltac:(lia)). cbn in *. congruence. Qed.
Lemma interior_dune q : interior Triangle q -> interiorD (toDune Triangle q).
Proof. destruct q as [x y]. cbn. intros (A & B & C) k Hk. destruct (three Hk) as [->|[-> | ->]]; cbn; lra. Qed.
Lemma permuted_interior sigma q q' : bijective3 sigma -> permuted sigma q q' -> interiorD q -> interiorD q'.
Proof.
  intros [B1 B2] P I k Hk.
  assert (S : exists l, (0 <= l <= 2)%Z /\ sigma l = k).
  { pose proof (B1 0%Z ltac:(lia)). pose proof (B1 1%Z ltac:(lia)). pose proof (B1 2%Z ltac:(lia)).
    assert (sigma 0%Z <> sigma 1%Z) by (intros Y; apply B2 in Y; lia). assert (sigma 0%Z <> sigma 2%Z) by (intros Y; apply B2 in Y; lia). assert (sigma 1%Z <> sigma 2%Z) by (intros Y; apply B2 in Y; lia).
    destruct (Z.eq_dec (sigma 0%Z) k); [exists 0%Z; lia|]. destruct (Z.eq_dec (sigma 1%Z) k); [exists 1%Z; lia|]. exists 2%Z. lia. }
  destruct S as (l & Hl & <-). rewrite (P l Hl). now apply I.
Qed.
Theorem kernel_never_singular : forall test trial t q a b w (X : Z -> point3),
  element test -> element trial -> length test = 3%nat -> length trial = 3%nat ->
  determineTopology test trial = Ok t ->
  interiorRule q -> fillDoubleSingular t q = Ok (a, b, w) ->
  (* the triangles are not degenerate, and different triangles do not overlap *)
  (forall p p', interiorD p -> interiorD p' -> phys (cornersOf X test) p = phys (cornersOf X test) p' -> p = p') ->
  (test <> trial -> forall p p', interiorD p -> interiorD p' -> phys (cornersOf X test) p <> phys (cornersOf X trial) p') ->
  forall c x y, nth_error a c = Some x -> nth_error b c = Some y -> phys (cornersOf X test) x <> phys (cornersOf X trial) y.
Proof.
  intros test trial t q a b w X E1 E2 L1 L2 D IR F NDG OV c x y Hx Hy.
  assert (ND : t_type t <> Disjoint).
  { intros Y. rewrite (@singular_rule_rejects test trial t q E1 E2 D) in F; [discriminate|auto]. }
  destruct (@singular_rule_triangles _ _ _ q E1 E2 L1 L2 D ND) as (g & sx & sy & a' & b' & w' & F' & Bx & By & G & La & _ & _ & Cov & K).
  rewrite F in F'. injection F' as <- <- <-.
  assert (Hc : (c < length a)%nat) by (apply nth_error_Some; congruence). rewrite La in Hc.
  destruct (Cov c Hc) as (r & i & j & Hr & Hi & Hj & ->).
  destruct (K r i j Hr Hi Hj) as (z & v & x' & y' & (ea & eb & Q1 & Q2 & Tr & _) & A1 & P1 & A2 & P2 & _).
  assert (x' = x) by congruence. assert (y' = y) by congruence. subst x' y'.
  assert (C : inCube (paramOf (fst ea) (fst eb))).
  { pose proof (IR _ (nth_error_In _ _ Q1)) as [I1 I2]. pose proof (IR _ (nth_error_In _ _ Q2)) as [I3 I4]. unfold inCube, paramOf. cbn. tauto. }
  destruct (@image _ _ _ _ _ Tr C) as (Ix & Iy & Zn & _).
  assert (Jx : interiorD x) by (eapply permuted_interior; [exact Bx|exact P1|now apply interior_dune]).
  assert (Jy : interiorD y) by (eapply permuted_interior; [exact By|exact P2|now apply interior_dune]).
  destruct (list_eq_dec Z.eq_dec test trial) as [<-|NE]; [|now apply OV].
  assert (T : t_type t = Coincident).
  { pose proof (topology_classification E1 E1) as TC. cbv zeta in TC. rewrite D, common_self in TC. destruct TC as (_ & _ & TC). destruct (t_type t); try reflexivity; exfalso; lia. }
  rewrite T in G. destruct G as [-> Id]. intros PE. apply NDG in PE; [|assumption|assumption]. subst y.
  assert (EQ : toDune Triangle (rx z) = toDune Triangle (ry z)).
  { change (toDune Triangle (rx z)) with (fst (rx z) - snd (rx z), snd (rx z)). change (toDune Triangle (ry z)) with (fst (ry z) - snd (ry z), snd (ry z)).
    apply bary_ext. intros k Hk. rewrite <- (P1 k Hk), <- (P2 k Hk). now destruct (Id k) as [-> ->]. }
  destruct z as [[x0 x1] [y0 y1] wz]. cbn [rx ry toDune fst snd] in *. injection EQ as EQ1 EQ2.
  clear - Zn EQ1 EQ2. do 6 (destruct r as [|r]; [cbn in Zn; lra|]). cbn in Zn. contradiction.
Qed.
(** two triangles sharing an edge in the plane z = 0 meet the hypotheses *)
Example kernel_never_singular_applies :
  let X v := if (v =? 0)%Z then (0, 0, 0) else if (v =? 1)%Z then (1, 0, 0) else if (v =? 2)%Z then (0, 1, 0) else (0, -1, 0) in
  let test := [0; 1; 2]%Z in let trial := [1; 0; 3]%Z in
  (forall p p', interiorD p -> interiorD p' -> phys (cornersOf X test) p = phys (cornersOf X test) p' -> p = p') /\
  (forall p p', interiorD p -> interiorD p' -> phys (cornersOf X test) p <> phys (cornersOf X trial) p') /\
  (exists t, determineTopology test trial = Ok t /\ t_type t = SharedEdge) /\ interiorRule [((/ 2, / 2), 1)].
Proof.
  cbv zeta. split; [|split; [|split]].
  - intros [x y] [x' y'] _ _ H. unfold phys, bary, cornersOf in H. cbn in H. injection H as H1 H2. f_equal; lra.
  - intros [x y] [x' y'] I I' H. pose proof (I 2%Z ltac:(lia)). pose proof (I' 2%Z ltac:(lia)). unfold phys, bary, cornersOf in H. cbn in *. injection H as K1 K2. lra.
  - eexists. split; reflexivity.
  - intros a [<-|[]]. cbn. lra.
Qed.

Print Assumptions topology_classification.
Print Assumptions topology_symmetric.
Print Assumptions singular_rule_triangles.
Print Assumptions singular_rule_quadrangle.
Print Assumptions singular_rule_rejects.
Print Assumptions duffy_jacobian.
Print Assumptions duffy_partition.
Print Assumptions duffy_total_weight.
Print Assumptions kernel_never_singular.
