(** C49, C82, C83, C84: interpolated kernels and the maximum distance of two grids. *)
From Coq Require Import Reals ZArith List Lra Lia.
Import ListNotations.
From Verif Require Import Base ArrayModel BoxModel BoxSpec HermiteModel HermiteProofs.
Set Implicit Arguments.
Local Open Scope R_scope.

(** the distance of neighbouring nodes *)
Definition spacing (start stop : R) (n : nat) : R := (stop - start) / INR (n - 1).

(** C49 (a): initialize accepts exactly the sensible data *)
Theorem hermite_initialize : forall start stop v d,
  (exists s, initialize start stop v d = Ok s) <-> (length v = length d /\ (2 <= length v)%nat /\ start < stop).
Proof.
  intros start stop v d. split.
  - intros (s & E). destruct (initialize_wf _ _ _ _ E) as ((Hn & Hv & Hd & Hs & _) & <- & <- & <- & <- & En). repeat split; [congruence|lia|exact Hs].
  - intros (El & Hn & Hs). unfold initialize, leb. rewrite El, Nat.eqb_refl. cbn [negb].
    destruct (Nat.ltb_spec (length d) 2); [lia|]. destruct (Rle_dec stop start); [lra|]. eauto.
Qed.
(** C49 (b): inside the range only stored samples are read *)
Theorem hermite_in_bounds : forall start stop v d s, initialize start stop v d = Ok s ->
  forall x, start <= x < stop -> exists y, evaluate s x = Ok y.
Proof.
  intros start stop v d s E x Hx. destruct (initialize_wf _ _ _ _ E) as (Hw & <- & <- & _).
  destruct (cell_exists Hw Hx) as (k & Hk & Hc). destruct (evaluate_cell Hw Hk Hc) as (? & ? & ? & ? & _ & _ & _ & _ & Ev). eauto.
Qed.
(** C49 (c): at a node the stored value is returned *)
Theorem hermite_nodes : forall start stop v d s, initialize start stop v d = Ok s ->
  forall k y, (S k < length v)%nat -> nth_error v k = Some y -> evaluate s (start + INR k * spacing start stop (length v)) = Ok y.
Proof.
  intros start stop v d s E k y Hk Hy. destruct (initialize_wf _ _ _ _ E) as (Hw & <- & <- & Ev & _ & En). subst v. rewrite <- En in *.
  destruct (interval_pos Hw) as (Hp & _ & _). pose proof Hw as (_ & _ & _ & _ & Hi).
  unfold spacing. rewrite <- Hi. set (x := h_start s + INR k * h_interval s).
  destruct (evaluate_cell (x := x) Hw Hk) as (f1 & f2 & d1 & d2 & F1 & _ & _ & _ & ->); [unfold x; rewrite S_INR; lra|].
  assert (f1 = y) by congruence. subst f1. f_equal.
  replace ((x - h_start s) / h_interval s - INR k) with 0 by (unfold x; field; lra). unfold cubic. ring.
Qed.
(** C49 (d): samples of a smooth function are interpolated with the classical error h^4 max|f''''| / 384;
    in particular cubic polynomials are reproduced *)
Theorem hermite_error : forall start stop v d s, initialize start stop v d = Ok s ->
  let h := spacing start stop (length v) in
  forall (f f' f2 f3 f4 : R -> R) M,
  (forall y, start <= y <= stop -> derivable_pt_lim f y (f' y)) ->
  (forall y, start <= y <= stop -> derivable_pt_lim f' y (f2 y)) ->
  (forall y, start <= y <= stop -> derivable_pt_lim f2 y (f3 y)) ->
  (forall y, start <= y <= stop -> derivable_pt_lim f3 y (f4 y)) ->
  (forall y, start <= y <= stop -> Rabs (f4 y) <= M) ->
  (forall k, (k < length v)%nat -> nth_error v k = Some (f (start + INR k * h)) /\ nth_error d k = Some (f' (start + INR k * h))) ->
  forall x, start <= x < stop -> exists y, evaluate s x = Ok y /\ Rabs (y - f x) <= M * h ^ 4 / 384.
Proof.
  intros start stop v d s E h f f' f2 f3 f4 M E0 E1 E2 E3 HB Hs x Hx.
  destruct (initialize_wf _ _ _ _ E) as (Hw & <- & <- & <- & <- & En). pose proof Hw as (_ & _ & _ & _ & Hi).
  assert (Eh : h = h_interval s) by (unfold h, spacing; rewrite <- En; symmetry; exact Hi). clearbody h. subst h. rewrite <- En in Hs. exact (@evaluate_error s x f f' f2 f3 f4 M Hw Hx E0 E1 E2 E3 HB Hs).
Qed.
(** C82, full claim: also at the end of the range.  Refuted: there m_values[n] is read, one past the end.
    Partial: any point before the end. *)
Theorem hermite_range_end_partial : forall start stop v d s, initialize start stop v d = Ok s ->
  forall x, start <= x <= stop -> x <> stop -> exists y, evaluate s x = Ok y.
Proof. intros. eapply hermite_in_bounds; eauto. lra. Qed.
Theorem hermite_range_end_refuted : forall start stop v d s, initialize start stop v d = Ok s -> evaluate s stop = Undefined.
Proof.
  intros start stop v d s E. destruct (initialize_wf _ _ _ _ E) as (Hw & <- & <- & <- & <- & En).
  destruct (interval_pos Hw) as (Hp & He & H1). pose proof Hw as (Hn & Hv & Hd & _ & _).
  assert (T : trunc ((h_end s - h_start s) / h_interval s) = Z.of_nat (h_n s - 1)).
  { apply trunc_unique; [lia|]. rewrite <- He, <- INR_IZR_INZ.
    replace (INR (h_n s - 1) * h_interval s / h_interval s) with (INR (h_n s - 1)) by (field; lra). lra. }
  unfold evaluate, modf. rewrite T.
  assert (A : forall l, length l = h_n s -> at_ l (Z.of_nat (h_n s - 1) + 1) = Undefined).
  { intros l Hl. unfold at_. destruct (Z.ltb_spec (Z.of_nat (h_n s - 1) + 1) 0); [reflexivity|].
    rewrite (proj2 (nth_error_None l _)) by lia. reflexivity. }
  rewrite (A _ Hv). now destruct (at_ (h_vals s) (Z.of_nat (h_n s - 1))) eqn:Ea; cbn [bind]; [reflexivity| |reflexivity];
    exfalso; unfold at_ in Ea; destruct (Z.of_nat (h_n s - 1) <? 0)%Z; [discriminate|]; destruct (nth_error _ _); discriminate.
Qed.

(** ---- C83 ---- *)
(** p lies in the flat element with corners a, b, c *)
Definition inTriangle (a b c p : point) : Prop :=
  exists l m n, 0 <= l /\ 0 <= m /\ 0 <= n /\ l + m + n = 1 /\
    px p = l * px a + m * px b + n * px c /\ py p = l * py a + m * py b + n * py c /\ pz p = l * pz a + m * pz b + n * pz c.
Lemma inTriangle_box lo up a b c p : ple lo a /\ ple a up -> ple lo b /\ ple b up -> ple lo c /\ ple c up -> inTriangle a b c p -> ple lo p /\ ple p up.
Proof.
  intros ((A1 & A2 & A3) & (A4 & A5 & A6)) ((B1 & B2 & B3) & (B4 & B5 & B6)) ((C1 & C2 & C3) & (C4 & C5 & C6)) (l & m & n & Hl & Hm & Hn & Hs & Ex & Ey & Ez).
  assert (G : forall t u v w, t <= u -> t <= v -> t <= w -> t <= l * u + m * v + n * w).
  { intros t u v w H1 H2 H3. replace t with (l * t + m * t + n * t) by (replace t with ((l + m + n) * t) at 4 by (rewrite Hs; ring); ring).
    repeat apply Rplus_le_compat; apply Rmult_le_compat_l; assumption. }
  assert (G' : forall t u v w, u <= t -> v <= t -> w <= t -> l * u + m * v + n * w <= t).
  { intros t u v w H1 H2 H3. replace t with (l * t + m * t + n * t) by (replace t with ((l + m + n) * t) at 4 by (rewrite Hs; ring); ring).
    repeat apply Rplus_le_compat; apply Rmult_le_compat_l; assumption. }
  unfold ple. rewrite Ex, Ey, Ez. repeat split; auto.
Qed.
(** no two points of elements of the grids are further apart than maxDistance *)
Theorem max_distance_bounds : forall vs1 vs2 dmax, maxDistance vs1 vs2 = Some dmax ->
  forall a1 b1 c1 a2 b2 c2 p q, In a1 vs1 -> In b1 vs1 -> In c1 vs1 -> In a2 vs2 -> In b2 vs2 -> In c2 vs2 ->
  inTriangle a1 b1 c1 p -> inTriangle a2 b2 c2 q -> 0 <= dist p q <= dmax.
Proof.
  intros vs1 vs2 d Hd a1 b1 c1 a2 b2 c2 p q Ha1 Hb1 Hc1 Ha2 Hb2 Hc2 Hp Hq. split; [apply sqrt_pos|].
  destruct (boundingBox vs1) as [[lo1 up1]|] eqn:B1; [|unfold maxDistance in Hd; rewrite B1 in Hd; discriminate].
  destruct (boundingBox vs2) as [[lo2 up2]|] eqn:B2; [|unfold maxDistance in Hd; rewrite B1, B2 in Hd; discriminate].
  pose proof (boundingBox_spec _ B1) as S1. pose proof (boundingBox_spec _ B2) as S2.
  destruct (inTriangle_box (S1 _ Ha1) (S1 _ Hb1) (S1 _ Hc1) Hp) as (P1 & P2). destruct (inTriangle_box (S2 _ Ha2) (S2 _ Hb2) (S2 _ Hc2) Hq) as (Q1 & Q2).
  exact (@maxDistance_bound vs1 vs2 d lo1 up1 lo2 up2 p q B1 B2 Hd P1 P2 Q1 Q2).
Qed.

(** ---- C84 ---- *)
Lemma nodes_spacing dmax n k : (2 <= n)%Z -> nodeDist dmax n k = 0 + INR k * spacing 0 dmax (Z.to_nat n).
Proof.
  intros Hn. unfold nodeDist, spacing. rewrite (INR_IZR_INZ (Z.to_nat n - 1)), Nat2Z.inj_sub, Z2Nat.id by lia.
  assert (IZR (n - Z.of_nat 1) <> 0) by (apply not_0_IZR; lia). change (Z.of_nat 1) with 1%Z in *. field. exact H.
Qed.
(** full claim: for every wave number k >= 0, sampling density and pair of grids the interpolated
    exponential can be set up and evaluated at the distance of any two points of the grids, within (k h)^4/384.
    Partial: when the range holds at least one sampling interval. *)
Theorem kernel_interpolation_partial : forall k pts vs1 vs2 dmax, 0 <= k -> maxDistance vs1 vs2 = Some dmax -> 0 < dmax ->
  let L := 11 / 10 * dmax in
  1 <= L / (2 * PI / k) * IZR pts -> 0 < k ->
  exists s h, initializeKernel k L pts = Ok s /\ 0 < h /\ h * (L / (2 * PI / k) * IZR pts - 1) <= L /\
  forall a1 b1 c1 a2 b2 c2 p q, In a1 vs1 -> In b1 vs1 -> In c1 vs1 -> In a2 vs2 -> In b2 vs2 -> In c2 vs2 ->
    inTriangle a1 b1 c1 p -> inTriangle a2 b2 c2 q ->
    exists v, evaluate s (dist p q) = Ok v /\ Rabs (v - exp (- k * dist p q)) <= (k * h) ^ 4 / 384.
Proof.
  intros k pts vs1 vs2 dmax Hk Hd Hpos L HL Hk0. assert (L0 : 0 < L) by (unfold L; lra).
  set (c := L / (2 * PI / k) * IZR pts) in *.
  assert (Ec : pointCount k L pts = trunc (c + 1)).
  { unfold pointCount. destruct (Req_EM_T k 0); [lra|]. rewrite (Rabs_pos_eq k Hk). reflexivity. }
  destruct (@trunc_bounds (c + 1)) as (Hz & Hb); [lra|]. set (n := trunc (c + 1)) in *.
  assert (Hn : (2 <= n)%Z) by (assert (IZR 1 < IZR n) by lra; apply lt_IZR in H; lia).
  assert (E : exists s, initializeKernel k L pts = Ok s).
  { unfold initializeKernel. rewrite Ec. destruct (Z.ltb_spec n 0); [lia|]. apply hermite_initialize.
    rewrite !map_length, seq_length. split; [reflexivity|]. split; [lia|exact L0]. }
  destruct E as (s & E). exists s, (spacing 0 L (Z.to_nat n)). split; [exact E|].
  assert (En : INR (Z.to_nat n - 1) = IZR n - 1) by (rewrite INR_IZR_INZ, Nat2Z.inj_sub, Z2Nat.id, minus_IZR by lia; reflexivity).
  assert (n1 : 1 <= IZR n - 1) by (apply IZR_le in Hn; lra).
  assert (hp : 0 < spacing 0 L (Z.to_nat n)) by (unfold spacing; rewrite En; apply Rdiv_lt_0_compat; lra).
  split; [exact hp|]. split.
  { assert (spacing 0 L (Z.to_nat n) * (IZR n - 1) = L) by (unfold spacing; rewrite En; field; lra). 
    rewrite <- H at 2. apply Rmult_le_compat_l; lra. }
  intros a1 b1 c1 a2 b2 c2 p q Ha1 Hb1 Hc1 Ha2 Hb2 Hc2 Hp Hq.
  assert (Hdist : 0 <= dist p q < L).
  { pose proof (@max_distance_bounds vs1 vs2 dmax Hd a1 b1 c1 a2 b2 c2 p q Ha1 Hb1 Hc1 Ha2 Hb2 Hc2 Hp Hq). unfold L. lra. }
  unfold initializeKernel in E. rewrite Ec in E. destruct (Z.ltb_spec n 0); [lia|].
  assert (D : forall c y, derivable_pt_lim (fun x => c * exp (- k * x)) y (c * (- k * exp (- k * y)))).
  { intros c0 y. apply scal_derive. replace (- k * exp (- k * y)) with (exp (- k * y) * (- k * 1)) by ring.
    apply (derivable_pt_lim_comp (fun x => - k * x) exp); [apply (derivable_pt_lim_scal (fun x => x)), derivable_pt_lim_id|apply derivable_pt_lim_exp]. }
  assert (D' : forall c c' y, c' = - k * c -> derivable_pt_lim (fun x => c * exp (- k * x)) y (c' * exp (- k * y))).
  { intros c0 c' y ->. replace (- k * c0 * exp (- k * y)) with (c0 * (- k * exp (- k * y))) by ring. apply D. }
  pose proof (@hermite_error 0 L _ _ s E) as HE. cbv zeta in HE. rewrite !map_length, seq_length in HE.
  destruct (HE (fun x => 1 * exp (- k * x)) (fun x => - k * exp (- k * x)) (fun x => (k * k) * exp (- k * x))
    (fun x => (- k ^ 3) * exp (- k * x)) (fun x => k ^ 4 * exp (- k * x)) (k ^ 4)) with (x := dist p q) as (v & Ev & Err).
  - intros y _. apply D'. ring.
  - intros y _. apply D'. ring.
  - intros y _. apply D'. ring.
  - intros y _. apply D'. ring.
  - intros y Hy. rewrite Rabs_mult, (Rabs_pos_eq (k ^ 4)), (Rabs_pos_eq (exp _)) by (try (left; apply exp_pos); apply pow_le; lra).
    rewrite <- (Rmult_1_r (k ^ 4)) at 2. apply Rmult_le_compat_l; [apply pow_le; lra|]. rewrite <- exp_0.
    destruct (Req_dec (- k * y) 0) as [->|Hne]; [lra|]. left. apply exp_increasing. nra.
  - intros j Hj. rewrite !nth_error_map, (nth_error_nth' (seq 0 (Z.to_nat n)) 0%nat) by (rewrite seq_length; exact Hj).
    rewrite seq_nth by exact Hj. cbn [option_map Nat.add]. rewrite (nodes_spacing _ _ Hn). split; f_equal. ring.
  - exact Hdist.
  - exists v. split; [exact Ev|]. rewrite Rmult_1_l in Err. rewrite Rpow_mult_distr. exact Err.
Qed.
(** Refuted: with a low wave number fewer than two samples are taken and initialize throws *)
Theorem kernel_interpolation_refuted : forall pts maxDist, 0 < maxDist -> (0 <= pts)%Z ->
  initializeKernel 0 maxDist pts = Throws /\
  (forall k, 0 < k -> maxDist / (2 * PI / k) * IZR pts < 1 -> initializeKernel k maxDist pts = Throws).
Proof.
  intros pts L HL Hp.
  assert (T : forall k, pointCount k L pts = 1%Z -> initializeKernel k L pts = Throws).
  { intros k E. unfold initializeKernel. rewrite E. reflexivity. }
  split.
  - apply T. unfold pointCount. destruct (Req_EM_T 0 0); [|congruence]. apply trunc_unique; [lia|]. lra.
  - intros k Hk Hs. apply T. unfold pointCount. destruct (Req_EM_T k 0); [lra|]. rewrite Rabs_pos_eq by lra.
    apply trunc_unique; [lia|]. pose proof PI_RGT_0.
    assert (0 <= L / (2 * PI / k) * IZR pts).
    { apply Rmult_le_pos; [|now apply IZR_le]. left. apply Rdiv_lt_0_compat; [lra|]. apply Rdiv_lt_0_compat; lra. }
    lra.
Qed.

(** non-vacuity *)
Example hermite_example : exists s, initialize 0 2 [0; 1; 8] [0; 3; 12] = Ok s /\ evaluate s 1 = Ok 1 /\ evaluate s (3 / 2) = Ok (27 / 8).
Proof.
  destruct (proj2 (hermite_initialize 0 2 [0; 1; 8] [0; 3; 12])) as (s & E); [cbn; repeat split; try lia; lra|].
  exists s. split; [exact E|]. split.
  - pose proof (@hermite_nodes _ _ _ _ _ E 1%nat 1) as N. replace (0 + INR 1 * spacing 0 2 (length [0; 1; 8])) with 1 in N by (unfold spacing; cbn; field).
    apply N; [cbn; lia|reflexivity].
  - destruct (initialize_wf _ _ _ _ E) as (Hw & Es & Ee & Ev & Ed & En). pose proof Hw as (_ & _ & _ & _ & Hi).
    rewrite Es, Ee, En in Hi. replace ((2 - 0) / INR (length [0; 1; 8] - 1)) with 1 in Hi by (cbn; field).
    destruct (evaluate_cell (x := 3 / 2) (k := 1%nat) Hw) as (f1 & f2 & e1 & e2 & F1 & F2 & D1 & D2 & ->); [rewrite En; cbn; lia|rewrite Es, Hi; cbn; lra|].
    rewrite Ev in F1, F2. rewrite Ed in D1, D2. cbn in F1, F2, D1, D2.
    assert (f1 = 1) by congruence. assert (f2 = 8) by congruence. assert (e1 = 3) by congruence. assert (e2 = 12) by congruence. subst.
    rewrite Hi, Es. f_equal. unfold cubic. cbn. field.
Qed.
Example max_distance_example : exists dmax, maxDistance [(0, 0, 0); (1, 0, 0); (0, 1, 0)] [(3, 0, 0); (4, 0, 0); (3, 1, 0)] = Some dmax /\ 4 <= dmax.
Proof.
  destruct (maxDistance [(0, 0, 0); (1, 0, 0); (0, 1, 0)] [(3, 0, 0); (4, 0, 0); (3, 1, 0)]) as [d|] eqn:E; [|cbv [maxDistance boundingBox] in E; discriminate].
  exists d. split; [reflexivity|].
  assert (D : dist (0, 0, 0) (4, 0, 0) = 4).
  { unfold dist, px, py, pz. cbn [fst snd]. replace ((0 - 4) * (0 - 4) + (0 - 0) * (0 - 0) + (0 - 0) * (0 - 0)) with (4 * 4) by ring. apply sqrt_square. lra. }
  rewrite <- D.
  apply (@max_distance_bounds [(0, 0, 0); (1, 0, 0); (0, 1, 0)] [(3, 0, 0); (4, 0, 0); (3, 1, 0)] d E
    (0, 0, 0) (0, 0, 0) (0, 0, 0) (4, 0, 0) (4, 0, 0) (4, 0, 0)); cbn; auto;
  exists 1, 0, 0; unfold px, py, pz; cbn; repeat split; lra.
Qed.

Print Assumptions hermite_initialize.
Print Assumptions hermite_in_bounds.
Print Assumptions hermite_nodes.
Print Assumptions hermite_error.
Print Assumptions hermite_range_end_partial.
Print Assumptions hermite_range_end_refuted.
Print Assumptions max_distance_bounds.
Print Assumptions kernel_interpolation_partial.
Print Assumptions kernel_interpolation_refuted.
