From Coq Require Import Reals ZArith List Lra Lia.
Import ListNotations.
From Verif Require Import Base ArrayModel BoxModel BoxSpec HermiteModel.
Set Implicit Arguments.
Local Open Scope R_scope.

Lemma Int_part_unique y (n : Z) : IZR n <= y < IZR n + 1 -> Int_part y = n.
Proof.
  intros H. destruct (base_Int_part y) as (H1 & H2).
  assert (IZR (Int_part y) < IZR (n + 1)) by (rewrite plus_IZR; lra).
  assert (IZR n < IZR (Int_part y + 1)) by (rewrite plus_IZR; lra).
  apply lt_IZR in H0, H3. lia.
Qed.
Lemma trunc_bounds y : 0 <= y -> (0 <= trunc y)%Z /\ IZR (trunc y) <= y < IZR (trunc y) + 1.
Proof.
  intros H. unfold trunc. destruct (Rle_dec 0 y); [|contradiction]. destruct (base_Int_part y) as (H1 & H2).
  split; [|lra]. assert (IZR (-1) < IZR (Int_part y)) by lra. apply lt_IZR in H0. lia.
Qed.
Lemma trunc_unique y n : (0 <= n)%Z -> IZR n <= y < IZR n + 1 -> trunc y = n.
Proof.
  intros Hn H. unfold trunc. destruct (Rle_dec 0 y) as [|N]; [now apply Int_part_unique|].
  exfalso. apply N. apply IZR_le in Hn. lra.
Qed.
Lemma at_ok v n x : nth_error v n = Some x -> at_ v (Z.of_nat n) = Ok x.
Proof.
  intros H. unfold at_. destruct (Z.ltb_spec (Z.of_nat n) 0); [lia|]. now rewrite Nat2Z.id, H.
Qed.

(** the cubic on one interval, in the local variable *)
Definition cubic (f1 f2 d1 d2 t : R) : R :=
  f1 + t * (d1 + t * (- ((d1 - (f2 - f1)) + (d1 - (f2 - f1)) + (d2 - (f2 - f1))) + t * ((d1 - (f2 - f1)) + (d2 - (f2 - f1))))).

Definition wellFormed (s : herm) : Prop :=
  (2 <= h_n s)%nat /\ length (h_vals s) = h_n s /\ length (h_ders s) = h_n s /\ h_start s < h_end s /\
  h_interval s = (h_end s - h_start s) / INR (h_n s - 1).
Lemma initialize_wf start stop v d s : initialize start stop v d = Ok s ->
  wellFormed s /\ h_start s = start /\ h_end s = stop /\ h_vals s = v /\ h_ders s = d /\ h_n s = length v.
Proof.
  unfold initialize, leb. destruct (Nat.eqb_spec (length v) (length d)); [|discriminate]. cbn [negb].
  destruct (Nat.ltb_spec (length v) 2); [discriminate|]. destruct (Rle_dec stop start); [discriminate|].
  intros H1. inversion H1; subst. cbn. apply Rnot_le_lt in n. repeat split; auto; lia.
Qed.
Lemma interval_pos s : wellFormed s -> 0 < h_interval s /\ INR (h_n s - 1) * h_interval s = h_end s - h_start s /\ 1 <= INR (h_n s - 1).
Proof.
  intros (Hn & _ & _ & Hse & Hi). assert (H1 : 1 <= INR (h_n s - 1)) by (apply (le_INR 1); lia). rewrite Hi.
  split; [apply Rdiv_lt_0_compat; lra|]. split; [field; lra|exact H1].
Qed.
(** a point of [start, end) lies in a cell; the four samples of the cell are read *)
Lemma cell_exists s x : wellFormed s -> h_start s <= x < h_end s ->
  exists k, (S k < h_n s)%nat /\ h_start s + INR k * h_interval s <= x < h_start s + INR (S k) * h_interval s.
Proof.
  intros Hw Hx. destruct (interval_pos Hw) as (Hp & He & H1). set (y := (x - h_start s) / h_interval s).
  assert (Ey : x = h_start s + y * h_interval s) by (unfold y; field; lra).
  assert (Hy : 0 <= y) by (apply Rmult_le_pos; [lra|]; left; apply Rinv_0_lt_compat; exact Hp).
  destruct (trunc_bounds Hy) as (Hz & Hb). set (z := trunc y) in *.
  assert (Hy2 : y < INR (h_n s - 1)).
  { apply Rmult_lt_reg_r with (h_interval s); [exact Hp|]. rewrite He. lra. }
  exists (Z.to_nat z). rewrite S_INR, INR_IZR_INZ, Z2Nat.id by exact Hz. split.
  - assert (IZR z < IZR (Z.of_nat (h_n s - 1))) by (rewrite <- INR_IZR_INZ; lra). apply lt_IZR in H. lia.
  - rewrite Ey. split; nra.
Qed.
Lemma evaluate_cell s x k : wellFormed s -> (S k < h_n s)%nat ->
  h_start s + INR k * h_interval s <= x < h_start s + INR (S k) * h_interval s ->
  exists f1 f2 d1 d2, nth_error (h_vals s) k = Some f1 /\ nth_error (h_vals s) (S k) = Some f2 /\
    nth_error (h_ders s) k = Some d1 /\ nth_error (h_ders s) (S k) = Some d2 /\
    evaluate s x = Ok (cubic f1 f2 (d1 * h_interval s) (d2 * h_interval s) ((x - h_start s) / h_interval s - INR k)).
Proof.
  intros Hw Hk Hx. destruct (interval_pos Hw) as (Hp & He & H1). destruct Hw as (Hn & Hv & Hd & _ & _).
  assert (N : forall (l : list R) j, length l = h_n s -> (j < h_n s)%nat -> exists v, nth_error l j = Some v).
  { intros l j Hl Hj. destruct (nth_error l j) eqn:E; [eauto|]. apply nth_error_None in E. lia. }
  destruct (N (h_vals s) k Hv ltac:(lia)) as (f1 & F1). destruct (N (h_vals s) (S k) Hv Hk) as (f2 & F2).
  destruct (N (h_ders s) k Hd ltac:(lia)) as (d1 & D1). destruct (N (h_ders s) (S k) Hd Hk) as (d2 & D2).
  exists f1, f2, d1, d2. split; [exact F1|]. split; [exact F2|]. split; [exact D1|]. split; [exact D2|].
  rewrite S_INR in Hx.
  assert (Tk : trunc ((x - h_start s) / h_interval s) = Z.of_nat k).
  { apply trunc_unique; [lia|]. rewrite <- INR_IZR_INZ. split.
    - apply Rmult_le_reg_r with (h_interval s); [exact Hp|]. unfold Rdiv. rewrite Rmult_assoc, Rinv_l by lra. lra.
    - apply Rmult_lt_reg_r with (h_interval s); [exact Hp|]. unfold Rdiv. rewrite Rmult_assoc, Rinv_l by lra. lra. }
  unfold evaluate, modf. rewrite Tk, (at_ok _ _ F1). cbn [bind].
  replace (Z.of_nat k + 1)%Z with (Z.of_nat (S k)) by lia. rewrite (at_ok _ _ F2). cbn [bind].
  rewrite (at_ok _ _ D1). cbn [bind]. rewrite (at_ok _ _ D2). cbn [bind]. rewrite <- INR_IZR_INZ. reflexivity.
Qed.

(** ---- the interpolation error ---- *)
Lemma rolle f f' a b : a < b -> (forall x, a <= x <= b -> derivable_pt_lim f x (f' x)) -> f a = 0 -> f b = 0 ->
  exists c, a < c < b /\ f' c = 0.
Proof.
  intros Hab Hd Ha Hb. destruct (MVT_cor2 f f' a b Hab Hd) as (c & Hc & Hi). exists c. split; [exact Hi|].
  rewrite Ha, Hb in Hc. apply Rmult_eq_reg_r with (b - a); lra.
Qed.
Definition poly (a0 a1 a2 a3 a4 x : R) : R := a0 + a1 * x + a2 * x ^ 2 + a3 * x ^ 3 + a4 * x ^ 4.
Lemma poly_derive a0 a1 a2 a3 a4 x : derivable_pt_lim (poly a0 a1 a2 a3 a4) x (poly a1 (2 * a2) (3 * a3) (4 * a4) 0 x).
Proof.
  assert (E : poly a1 (2 * a2) (3 * a3) (4 * a4) 0 x =
    (0 + a1 * 1) + a2 * (INR 2 * x ^ 1) + a3 * (INR 3 * x ^ 2) + a4 * (INR 4 * x ^ 3)).
  { unfold poly. cbn. ring. }
  rewrite E. unfold poly.
  apply (derivable_pt_lim_plus (fun x => a0 + a1 * x + a2 * x ^ 2 + a3 * x ^ 3) (fun x => a4 * x ^ 4)).
  2: apply (derivable_pt_lim_scal (fun x => x ^ 4)), (derivable_pt_lim_pow x 4).
  apply (derivable_pt_lim_plus (fun x => a0 + a1 * x + a2 * x ^ 2) (fun x => a3 * x ^ 3)).
  2: apply (derivable_pt_lim_scal (fun x => x ^ 3)), (derivable_pt_lim_pow x 3).
  apply (derivable_pt_lim_plus (fun x => a0 + a1 * x) (fun x => a2 * x ^ 2)).
  2: apply (derivable_pt_lim_scal (fun x => x ^ 2)), (derivable_pt_lim_pow x 2).
  apply (derivable_pt_lim_plus (fun x => a0) (fun x => a1 * x)); [apply derivable_pt_lim_const|].
  apply (derivable_pt_lim_scal (fun x => x)), derivable_pt_lim_id.
Qed.
Section Error.
  Variables F0 F1 F2 F3 F4 : R -> R.
  Hypothesis D0 : forall x, 0 <= x <= 1 -> derivable_pt_lim F0 x (F1 x).
  Hypothesis D1 : forall x, 0 <= x <= 1 -> derivable_pt_lim F1 x (F2 x).
  Hypothesis D2 : forall x, 0 <= x <= 1 -> derivable_pt_lim F2 x (F3 x).
  Hypothesis D3 : forall x, 0 <= x <= 1 -> derivable_pt_lim F3 x (F4 x).
  Variable M : R.
  Hypothesis B : forall x, 0 <= x <= 1 -> Rabs (F4 x) <= M.
  Let H t := cubic (F0 0) (F0 1) (F1 0) (F1 1) t.

  Lemma sub_derive f f' p p' x : derivable_pt_lim f x f' -> derivable_pt_lim p x p' ->
    derivable_pt_lim (fun s => f s - p s) x (f' - p').
  Proof. intros A C. exact (derivable_pt_lim_minus f p x f' p' A C). Qed.

  Lemma cubic_error t : 0 <= t <= 1 -> Rabs (F0 t - H t) <= M * (t ^ 2 * (1 - t) ^ 2) / 24.
  Proof.
    intros Ht. assert (M0 : 0 <= M) by (eapply Rle_trans; [apply Rabs_pos|apply (@B 0); lra]).
    destruct (Req_dec t 0) as [->|T0].
    { replace (F0 0 - H 0) with 0 by (unfold H, cubic; ring). rewrite Rabs_R0. lra. }
    destruct (Req_dec t 1) as [->|T1].
    { replace (F0 1 - H 1) with 0 by (unfold H, cubic; ring). rewrite Rabs_R0. lra. }
    set (W := t ^ 2 * (1 - t) ^ 2). assert (HW : 0 < W) by (unfold W; apply Rmult_lt_0_compat; apply pow_lt; lra).
    set (c := (F0 t - H t) / W).
    set (f1 := F0 0). set (f2 := F0 1). set (e1 := F1 0). set (e2 := F1 1).
    set (a2 := - ((e1 - (f2 - f1)) + (e1 - (f2 - f1)) + (e2 - (f2 - f1)))). set (a3 := (e1 - (f2 - f1)) + (e2 - (f2 - f1))).
    (* H + c s^2 (1-s)^2 *)
    set (P := poly f1 e1 (a2 + c) (a3 - 2 * c) c).
    assert (P0 : P 0 = F0 0) by (unfold P, poly; fold f1; ring).
    assert (P1 : P 1 = F0 1) by (unfold P, poly, a2, a3; fold f2; ring).
    assert (Pt : P t = F0 t).
    { replace (P t) with (H t + c * W); [unfold c; field; lra|]. unfold P, poly, H, cubic, W, a2, a3. fold f1 f2 e1 e2. ring. }
    set (P' := poly e1 (2 * (a2 + c)) (3 * (a3 - 2 * c)) (4 * c) 0).
    assert (P'0 : P' 0 = F1 0) by (unfold P', poly; fold e1; ring).
    assert (P'1 : P' 1 = F1 1) by (unfold P', poly, a2, a3; fold e2; ring).
    set (P'' := poly (2 * (a2 + c)) (2 * (3 * (a3 - 2 * c))) (3 * (4 * c)) (4 * 0) 0).
    set (P3 := poly (2 * (3 * (a3 - 2 * c))) (2 * (3 * (4 * c))) (3 * (4 * 0)) (4 * 0) 0).
    set (P4 := poly (2 * (3 * (4 * c))) (2 * (3 * (4 * 0))) (3 * (4 * 0)) (4 * 0) 0).
    assert (G0 : forall x, 0 <= x <= 1 -> derivable_pt_lim (fun s => F0 s - P s) x (F1 x - P' x)) by (intros; apply sub_derive; [auto|apply poly_derive]).
    assert (G1 : forall x, 0 <= x <= 1 -> derivable_pt_lim (fun s => F1 s - P' s) x (F2 x - P'' x)) by (intros; apply sub_derive; [auto|apply poly_derive]).
    assert (G2 : forall x, 0 <= x <= 1 -> derivable_pt_lim (fun s => F2 s - P'' s) x (F3 x - P3 x)) by (intros; apply sub_derive; [auto|apply poly_derive]).
    assert (G3 : forall x, 0 <= x <= 1 -> derivable_pt_lim (fun s => F3 s - P3 s) x (F4 x - P4 x)) by (intros; apply sub_derive; [auto|apply poly_derive]).
    destruct (@rolle (fun s => F0 s - P s) (fun x => F1 x - P' x) 0 t) as (u & Hu & Zu); [lra|intros; apply G0; lra|lra|lra|].
    destruct (@rolle (fun s => F0 s - P s) (fun x => F1 x - P' x) t 1) as (v & Hv & Zv); [lra|intros; apply G0; lra|lra|lra|].
    destruct (@rolle (fun s => F1 s - P' s) (fun x => F2 x - P'' x) 0 u) as (u1 & Hu1 & Zu1); [lra|intros; apply G1; lra|lra|lra|].
    destruct (@rolle (fun s => F1 s - P' s) (fun x => F2 x - P'' x) u v) as (u2 & Hu2 & Zu2); [lra|intros; apply G1; lra|lra|lra|].
    destruct (@rolle (fun s => F1 s - P' s) (fun x => F2 x - P'' x) v 1) as (u3 & Hu3 & Zu3); [lra|intros; apply G1; lra|lra|lra|].
    destruct (@rolle (fun s => F2 s - P'' s) (fun x => F3 x - P3 x) u1 u2) as (v1 & Hv1 & Zv1); [lra|intros; apply G2; lra|lra|lra|].
    destruct (@rolle (fun s => F2 s - P'' s) (fun x => F3 x - P3 x) u2 u3) as (v2 & Hv2 & Zv2); [lra|intros; apply G2; lra|lra|lra|].
    destruct (@rolle (fun s => F3 s - P3 s) (fun x => F4 x - P4 x) v1 v2) as (w & Hw & Zw); [lra|intros; apply G3; lra|lra|lra|].
    assert (Ew : F4 w = 24 * c) by (unfold P4, poly in Zw; ring_simplify in Zw; lra).
    assert (Bw : Rabs (F4 w) <= M) by (apply B; lra).
    assert (Ec : F0 t - H t = F4 w * W / 24) by (rewrite Ew; unfold c; field; lra).
    rewrite Ec. unfold Rdiv. rewrite !Rabs_mult, (Rabs_pos_eq W), (Rabs_pos_eq (/ 24)) by lra.
    apply Rmult_le_compat_r; [lra|]. apply Rmult_le_compat_r; [lra|exact Bw].
  Qed.
End Error.
Lemma quarter t : 0 <= t <= 1 -> t ^ 2 * (1 - t) ^ 2 <= 1 / 16.
Proof. intros H. assert (0 <= t * (1 - t) <= 1 / 4) by (split; [nra|]; pose proof (pow2_ge_0 (t - 1 / 2)); nra). replace (t ^ 2 * (1 - t) ^ 2) with ((t * (1 - t)) ^ 2) by ring. nra. Qed.

(** evaluation against a smooth function *)
Lemma shift_derive g g' a h x : derivable_pt_lim g (a + h * x) g' -> derivable_pt_lim (fun t => g (a + h * t)) x (h * g').
Proof.
  intros H. replace (h * g') with (g' * (0 + h * 1)) by ring.
  apply (derivable_pt_lim_comp (fun t => a + h * t) g x (0 + h * 1) g'); [|exact H].
  apply (derivable_pt_lim_plus (fun _ => a) (fun t => h * t)); [apply derivable_pt_lim_const|].
  apply (derivable_pt_lim_scal (fun t => t)), derivable_pt_lim_id.
Qed.
Lemma scal_derive g g' c x : derivable_pt_lim g x g' -> derivable_pt_lim (fun t => c * g t) x (c * g').
Proof. intros H. exact (derivable_pt_lim_scal g c x g' H). Qed.
Lemma evaluate_error s x (f f' f2 f3 f4 : R -> R) M : wellFormed s -> h_start s <= x < h_end s ->
  (forall y, h_start s <= y <= h_end s -> derivable_pt_lim f y (f' y)) ->
  (forall y, h_start s <= y <= h_end s -> derivable_pt_lim f' y (f2 y)) ->
  (forall y, h_start s <= y <= h_end s -> derivable_pt_lim f2 y (f3 y)) ->
  (forall y, h_start s <= y <= h_end s -> derivable_pt_lim f3 y (f4 y)) ->
  (forall y, h_start s <= y <= h_end s -> Rabs (f4 y) <= M) ->
  (forall k, (k < h_n s)%nat -> nth_error (h_vals s) k = Some (f (h_start s + INR k * h_interval s)) /\
                                nth_error (h_ders s) k = Some (f' (h_start s + INR k * h_interval s))) ->
  exists v, evaluate s x = Ok v /\ Rabs (v - f x) <= M * h_interval s ^ 4 / 384.
Proof.
  intros Hw Hx E0 E1 E2 E3 HB Hsam. destruct (cell_exists Hw Hx) as (k & Hk & Hc).
  destruct (evaluate_cell Hw Hk Hc) as (f1 & g2 & d1 & d2 & F1 & F2 & D1 & D2 & Ev).
  destruct (interval_pos Hw) as (Hp & He & H1). set (h := h_interval s) in *. set (a := h_start s + INR k * h) in *.
  destruct (Hsam k ltac:(lia)) as (S1 & S2). destruct (Hsam (S k) Hk) as (S3 & S4).
  assert (X1 : f1 = f (h_start s + INR k * h)) by congruence. assert (X2 : g2 = f (h_start s + INR (S k) * h)) by congruence.
  assert (X3 : d1 = f' (h_start s + INR k * h)) by congruence. assert (X4 : d2 = f' (h_start s + INR (S k) * h)) by congruence.
  subst f1 g2 d1 d2.
  eexists. split; [exact Ev|]. set (t := (x - h_start s) / h - INR k).
  assert (Eb : h_start s + INR (S k) * h = a + h * 1) by (unfold a; rewrite S_INR; ring).
  assert (Ea : h_start s + INR k * h = a + h * 0) by (unfold a; ring).
  assert (Ext : x = a + h * t) by (unfold a, t; field; lra).
  assert (Ht : 0 <= t <= 1).
  { rewrite Eb, Ext in Hc. unfold a in Hc at 1. split; [apply Rmult_le_reg_l with h; [exact Hp|]; lra|apply Rmult_le_reg_l with h; [exact Hp|]; lra]. }
  assert (Ha : h_start s <= a) by (unfold a; pose proof (pos_INR k); nra).
  assert (Hb : a + h <= h_end s).
  { assert (INR (S k) <= INR (h_n s - 1)) by (apply le_INR; lia). rewrite S_INR in H. unfold a. nra. }
  assert (R01 : forall y, 0 <= y <= 1 -> h_start s <= a + h * y <= h_end s) by (intros; split; nra).
  pose proof (@cubic_error (fun t => f (a + h * t)) (fun t => h * f' (a + h * t)) (fun t => h * (h * f2 (a + h * t)))
      (fun t => h * (h * (h * f3 (a + h * t)))) (fun t => h * (h * (h * (h * f4 (a + h * t))))) ) as CE.
  specialize (CE (fun y Hy => @shift_derive f _ a h y (E0 _ (R01 y Hy)))).
  specialize (CE (fun y Hy => @scal_derive _ _ h _ (@shift_derive f' _ a h y (E1 _ (R01 y Hy))))).
  specialize (CE (fun y Hy => @scal_derive _ _ h _ (@scal_derive _ _ h _ (@shift_derive f2 _ a h y (E2 _ (R01 y Hy)))))).
  specialize (CE (fun y Hy => @scal_derive _ _ h _ (@scal_derive _ _ h _ (@scal_derive _ _ h _ (@shift_derive f3 _ a h y (E3 _ (R01 y Hy))))))).
  specialize (CE (M * h ^ 4)).
  assert (HB' : forall y, 0 <= y <= 1 -> Rabs (h * (h * (h * (h * f4 (a + h * y))))) <= M * h ^ 4).
  { intros y Hy. replace (h * (h * (h * (h * f4 (a + h * y))))) with (h ^ 4 * f4 (a + h * y)) by ring.
    rewrite Rabs_mult, (Rabs_pos_eq (h ^ 4)) by (apply pow_le; lra). rewrite (Rmult_comm M).
    apply Rmult_le_compat_l; [apply pow_le; lra|]. apply HB, R01, Hy. }
  specialize (CE HB' t Ht). cbv beta in CE. rewrite Rabs_minus_sym. rewrite Ext at 1. rewrite Eb. fold a.
  replace (a + h * 0) with a in CE by ring. 
  rewrite (Rmult_comm (f' a) h), (Rmult_comm (f' (a + h * 1)) h).
  eapply Rle_trans; [exact CE|].
  assert (M0 : 0 <= M * h ^ 4) by (eapply Rle_trans; [apply Rabs_pos|apply (HB' 0); lra]).
  pose proof (quarter Ht). nra.
Qed.

(** ---- maxDistance ---- *)
Lemma fold_min_spec l : forall v, (forall w, w = v \/ In w l -> ple (fold_left minPoint l v) w).
Proof.
  induction l as [|u l IH]; intros v w Hw; cbn [fold_left].
  - destruct Hw as [->|[]]. repeat split; lra.
  - destruct Hw as [->|[->|Hw]].
    + destruct (IH (minPoint v u) _ (or_introl eq_refl)) as (A & C & D).
      pose proof (Rmin_l (px v) (px u)). pose proof (Rmin_l (py v) (py u)). pose proof (Rmin_l (pz v) (pz u)).
      repeat split; [unfold minPoint, px, py, pz in *; cbn in *; lra ..].
    + destruct (IH (minPoint v w) _ (or_introl eq_refl)) as (A & C & D).
      pose proof (Rmin_r (px v) (px w)). pose proof (Rmin_r (py v) (py w)). pose proof (Rmin_r (pz v) (pz w)).
      repeat split; [unfold minPoint, px, py, pz in *; cbn in *; lra ..].
    + apply IH. now right.
Qed.
Lemma fold_max_spec l : forall v, (forall w, w = v \/ In w l -> ple w (fold_left maxPoint l v)).
Proof.
  induction l as [|u l IH]; intros v w Hw; cbn [fold_left].
  - destruct Hw as [->|[]]. repeat split; lra.
  - destruct Hw as [->|[->|Hw]].
    + destruct (IH (maxPoint v u) _ (or_introl eq_refl)) as (A & C & D).
      pose proof (Rmax_l (px v) (px u)). pose proof (Rmax_l (py v) (py u)). pose proof (Rmax_l (pz v) (pz u)).
      repeat split; [unfold maxPoint, px, py, pz in *; cbn in *; lra ..].
    + destruct (IH (maxPoint v w) _ (or_introl eq_refl)) as (A & C & D).
      pose proof (Rmax_r (px v) (px w)). pose proof (Rmax_r (py v) (py w)). pose proof (Rmax_r (pz v) (pz w)).
      repeat split; [unfold maxPoint, px, py, pz in *; cbn in *; lra ..].
    + apply IH. now right.
Qed.
Lemma boundingBox_spec vs lo up : boundingBox vs = Some (lo, up) -> forall w, In w vs -> ple lo w /\ ple w up.
Proof.
  destruct vs as [|v r]; [discriminate|]. cbn [boundingBox]. intros E w Hw.
  assert (El : fold_left minPoint r v = lo) by congruence. assert (Eu : fold_left maxPoint r v = up) by congruence.
  rewrite <- El, <- Eu. split; [apply fold_min_spec|apply fold_max_spec]; destruct Hw; auto.
Qed.
Lemma fold_Rmax_ge p r : forall res, res <= fold_left (fun x q => Rmax (pointDistance p q) x) r res.
Proof.
  induction r as [|q r IH]; intros res; cbn [fold_left]; [lra|].
  eapply Rle_trans; [|apply IH]. apply Rmax_r.
Qed.
Lemma fold_Rmax_in p r q : forall res, In q r -> pointDistance p q <= fold_left (fun x q => Rmax (pointDistance p q) x) r res.
Proof.
  induction r as [|q' r IH]; intros res []; cbn [fold_left].
  - subst. eapply Rle_trans; [|apply fold_Rmax_ge]. apply Rmax_l.
  - now apply IH.
Qed.
Lemma maxPair_ge l : forall res, res <= maxPair l res.
Proof. induction l as [|p r IH]; intros res; cbn [maxPair]; [lra|]. eapply Rle_trans; [|apply IH]. apply fold_Rmax_ge. Qed.
Lemma maxPair_in l1 l2 p q : In p l1 -> In q l2 -> forall res, pointDistance p q <= maxPair (l1 ++ l2) res.
Proof.
  intros Hp Hq. induction l1 as [|p' r IH]; [destruct Hp|]. intros res. cbn [app maxPair]. destruct Hp as [->|Hp].
  - eapply Rle_trans; [|apply maxPair_ge]. apply fold_Rmax_in. apply in_or_app. now right.
  - now apply IH.
Qed.
Lemma corner_in lo up x y z : (x = px lo \/ x = px up) -> (y = py lo \/ y = py up) -> (z = pz lo \/ z = pz up) ->
  In (x, y, z) (boxCorners lo up).
Proof.
  intros Hx Hy Hz. assert (El : lo = (px lo, py lo, pz lo)) by (destruct lo as [[? ?] ?]; reflexivity).
  assert (Eu : up = (px up, py up, pz up)) by (destruct up as [[? ?] ?]; reflexivity).
  unfold boxCorners. cbn [In].
  destruct Hx as [-> | ->], Hy as [-> | ->], Hz as [-> | ->]; rewrite <- ?El, <- ?Eu; tauto.
Qed.
Lemma coordinate_pair l1 u1 l2 u2 x y : l1 <= x <= u1 -> l2 <= y <= u2 ->
  exists a b, (a = l1 \/ a = u1) /\ (b = l2 \/ b = u2) /\ (x - y) * (x - y) <= (a - b) * (a - b).
Proof.
  intros Hx Hy. destruct (Rle_dec x y) as [H|H].
  - exists l1, u2. split; [now left|]. split; [now right|]. nra.
  - exists u1, l2. split; [now right|]. split; [now left|]. nra.
Qed.
Lemma maxDistance_bound vs1 vs2 d lo1 up1 lo2 up2 p q : boundingBox vs1 = Some (lo1, up1) -> boundingBox vs2 = Some (lo2, up2) ->
  maxDistance vs1 vs2 = Some d -> ple lo1 p -> ple p up1 -> ple lo2 q -> ple q up2 -> dist p q <= d.
Proof.
  intros B1 B2 Hd (A1 & A2 & A3) (A4 & A5 & A6) (C1 & C2 & C3) (C4 & C5 & C6). unfold maxDistance in Hd. rewrite B1, B2 in Hd. assert (Ed : d = maxPair (boxCorners lo1 up1 ++ boxCorners lo2 up2) 0) by congruence. rewrite Ed. clear Hd Ed.
  destruct (coordinate_pair (Logic.conj A1 A4) (Logic.conj C1 C4)) as (x & x' & Hx & Hx' & Ex).
  destruct (coordinate_pair (Logic.conj A2 A5) (Logic.conj C2 C5)) as (y & y' & Hy & Hy' & Ey).
  destruct (coordinate_pair (Logic.conj A3 A6) (Logic.conj C3 C6)) as (z & z' & Hz & Hz' & Ez).
  eapply Rle_trans; [|apply (@maxPair_in _ _ _ _ (corner_in lo1 up1 Hx Hy Hz) (corner_in lo2 up2 Hx' Hy' Hz'))].
  unfold dist, pointDistance, px, py, pz in *. cbn [fst snd]. apply sqrt_le_1_alt. 
  repeat match goal with |- context [Rsqr ?x] => change (Rsqr x) with (x * x) end. lra.
Qed.
Lemma pointDistance_nonneg p q : 0 <= pointDistance p q. Proof. apply sqrt_pos. Qed.
Lemma maxDistance_nonneg vs1 vs2 d : maxDistance vs1 vs2 = Some d -> 0 <= d.
Proof.
  unfold maxDistance. destruct (boundingBox vs1) as [[? ?]|]; [|discriminate]. destruct (boundingBox vs2) as [[? ?]|]; [|discriminate].
  intros E. match type of E with Some ?x = _ => assert (Ed : x = d) by congruence end. rewrite <- Ed. apply maxPair_ge.
Qed.
