(** Proofs about Chebyshev interpolation. *)
From Coq Require Import Reals List Arith Lia Lra.
Import ListNotations.
From Verif Require Import ChebModel ChebSpec.
Set Implicit Arguments.
Unset Strict Implicit.
Local Open Scope R_scope.

Lemma rsum_ext m f g : (forall j, (j < m)%nat -> f j = g j) -> rsum m f = rsum m g.
Proof. induction m as [|m IH]; intros H; cbn [rsum]; [reflexivity|]. rewrite IH by (intros; apply H; lia). now rewrite H by lia. Qed.
Lemma rsum_add m f g : rsum m (fun j => f j + g j) = rsum m f + rsum m g.
Proof. induction m as [|m IH]; cbn [rsum]; [lra|]. rewrite IH. lra. Qed.
Lemma rsum_scal m a f : rsum m (fun j => a * f j) = a * rsum m f.
Proof. induction m as [|m IH]; cbn [rsum]; [lra|]. rewrite IH. lra. Qed.
Lemma rsum_zero m f : (forall j, (j < m)%nat -> f j = 0) -> rsum m f = 0.
Proof. induction m as [|m IH]; intros H; cbn [rsum]; [reflexivity|]. rewrite IH by (intros; apply H; lia). rewrite H by lia. lra. Qed.
Lemma rsum_single m f k : (k < m)%nat -> (forall j, (j < m)%nat -> j <> k -> f j = 0) -> rsum m f = f k.
Proof.
  induction m as [|m IH]; intros L H; [lia|]. cbn [rsum]. destruct (Nat.eq_dec k m) as [->|N].
  - rewrite rsum_zero by (intros; apply H; lia). lra.
  - rewrite IH by (try lia; intros; apply H; lia). rewrite (H m) by lia. lra.
Qed.

(** ---- trigonometric sums ---- *)
Lemma cos_pi j : cos (INR j * PI) = (-1) ^ j.
Proof. induction j as [|j IH]; [cbn; rewrite Rmult_0_l; apply cos_0|]. rewrite S_INR. replace ((INR j + 1) * PI) with (INR j * PI + PI) by ring. rewrite neg_cos, IH. cbn [pow]. ring. Qed.
Lemma dirichlet t N : 2 * sin (t / 2) * rsum (S N) (fun j => cos (INR j * t)) = sin ((INR N + 1 / 2) * t) + sin (t / 2).
Proof.
  induction N as [|N IH].
  - cbn [rsum INR]. rewrite Rmult_0_l, cos_0. replace ((0 + 1 / 2) * t) with (t / 2) by field. ring.
  - change (rsum (S (S N)) (fun j => cos (INR j * t))) with (rsum (S N) (fun j => cos (INR j * t)) + cos (INR (S N) * t)). rewrite Rmult_plus_distr_l, IH, S_INR.
    replace ((INR N + 1 + 1 / 2) * t) with ((INR N + 1) * t + t / 2) by field. replace ((INR N + 1 / 2) * t) with ((INR N + 1) * t - t / 2) by field. rewrite sin_plus, sin_minus. ring.
Qed.
(** the weights without their signs *)
Definition endWeight (n j : nat) : R := if (j =? 0)%nat then 1 / 2 else if (j =? n)%nat then 1 / 2 else 1.
Lemma baryWeight_ends n j : (0 < n)%nat -> baryWeight n j = (-1) ^ j * endWeight n j.
Proof.
  intros N. unfold baryWeight, endWeight, alternating. destruct (Nat.eqb_spec j n) as [E1|E1], (Nat.eqb_spec j 0) as [E2|E2]; try lia; try (rewrite E2; cbn [pow]); lra.
Qed.
Lemma baryWeight_nz n j : (0 < n)%nat -> baryWeight n j <> 0.
Proof. intros N. rewrite baryWeight_ends by assumption. apply Rmult_integral_contrapositive_currified; [apply pow_nonzero; lra|]. unfold endWeight. destruct (j =? 0)%nat, (j =? n)%nat; lra. Qed.
Lemma half_sum n f : (0 < n)%nat -> rsum (S n) (fun j => endWeight n j * f j) = rsum (S n) f - f 0%nat / 2 - f n / 2.
Proof.
  intros N. cbn [rsum].
  assert (E : forall k, (0 < k <= n)%nat -> rsum k (fun j => endWeight n j * f j) = rsum k f - f 0%nat / 2).
  { induction k as [|k IH]; intros L; [lia|]. cbn [rsum]. destruct (Nat.eq_dec k 0) as [->|Nk]; [cbn [rsum]; unfold endWeight; cbn; lra|].
    rewrite IH by lia. unfold endWeight at 1. destruct (Nat.eqb_spec k 0); [lia|]. destruct (Nat.eqb_spec k n); [lia|]. lra. }
  rewrite E by lia. unfold endWeight. destruct (Nat.eqb_spec n 0); [lia|]. rewrite Nat.eqb_refl. lra.
Qed.
Definition angle (n j : nat) : R := PI * INR j / INR n.
Lemma cosine_sum n m : (0 < m < 2 * n)%nat -> rsum (S n) (fun j => endWeight n j * cos (INR m * angle n j)) = 0.
Proof.
  intros L. assert (Nn : INR n <> 0) by (apply not_0_INR; lia). assert (Pn : 0 < INR n) by (apply lt_0_INR; lia).
  set (t := INR m * PI / INR n).
  rewrite (rsum_ext (g := fun j => endWeight n j * cos (INR j * t))) by (intros j _; do 2 f_equal; unfold angle, t; field; exact Nn).
  rewrite half_sum by lia. cbn [INR]. rewrite Rmult_0_l, cos_0.
  assert (S2 : sin (t / 2) <> 0).
  { apply Rgt_not_eq. apply sin_gt_0.
    - unfold t. assert (0 < INR m) by (apply lt_0_INR; lia). pose proof PI_RGT_0. apply Rdiv_lt_0_compat; [|lra]. apply Rdiv_lt_0_compat; [now apply Rmult_lt_0_compat|exact Pn].
    - unfold t. pose proof PI_RGT_0. assert (INR m < INR (2 * n)) by (apply lt_INR; lia). rewrite mult_INR in H0. cbn [INR] in H0.
      apply (Rmult_lt_reg_r (INR n)); [exact Pn|]. replace (INR m * PI / INR n / 2 * INR n) with (INR m * PI / 2) by (field; exact Nn). nra. }
  apply (Rmult_eq_reg_l (2 * sin (t / 2))); [|lra]. rewrite Rmult_0_r. rewrite !Rmult_minus_distr_l, dirichlet.
  assert (SN : sin (INR n * t) = 0).
  { apply sin_eq_0_1. exists (Z.of_nat m). rewrite <- INR_IZR_INZ. unfold t. field. exact Nn. }
  replace ((INR n + 1 / 2) * t) with (INR n * t + t / 2) by field. rewrite sin_plus, SN. lra.
Qed.

(** ---- the functional that gives the leading coefficient vanishes on lower degrees ---- *)
Definition functional (n : nat) (f : nat -> R) : R := rsum (S n) (fun j => baryWeight n j * f j).
Lemma functional_ext n f g : (forall j, (j < S n)%nat -> f j = g j) -> functional n f = functional n g.
Proof. intros H. apply rsum_ext. intros j L. now rewrite H. Qed.
Lemma functional_add n f g : functional n (fun j => f j + g j) = functional n f + functional n g.
Proof. unfold functional. rewrite <- rsum_add. apply rsum_ext. intros. ring. Qed.
Lemma functional_scal n a f : functional n (fun j => a * f j) = a * functional n f.
Proof. unfold functional. rewrite <- rsum_scal. apply rsum_ext. intros. ring. Qed.
Lemma functional_cos n k : (k < n)%nat -> functional n (fun j => cos (INR k * angle n j)) = 0.
Proof.
  intros L. assert (Nn : INR n <> 0) by (apply not_0_INR; lia).
  transitivity (1 / 2 * rsum (S n) (fun j => endWeight n j * cos (INR (n + k) * angle n j)) + 1 / 2 * rsum (S n) (fun j => endWeight n j * cos (INR (n - k) * angle n j))).
  - rewrite <- !rsum_scal, <- rsum_add. apply rsum_ext. intros j _. rewrite baryWeight_ends by lia. rewrite <- cos_pi.
    rewrite plus_INR, minus_INR by lia. replace ((INR n + INR k) * angle n j) with (INR j * PI + INR k * angle n j) by (unfold angle; field; exact Nn).
    replace ((INR n - INR k) * angle n j) with (INR j * PI - INR k * angle n j) by (unfold angle; field; exact Nn). rewrite cos_plus, cos_minus. field.
  - rewrite !cosine_sum by lia. lra.
Qed.
Lemma functional_powcos n : forall k m, (k + m < n)%nat -> functional n (fun j => cos (angle n j) ^ k * cos (INR m * angle n j)) = 0.
Proof.
  induction k as [|k IH]; intros m L.
  - rewrite (functional_ext (g := fun j => cos (INR m * angle n j))) by (intros; cbn [pow]; ring). now apply functional_cos.
  - destruct m as [|m].
    + rewrite (functional_ext (g := fun j => cos (angle n j) ^ k * cos (INR 1 * angle n j))).
      * apply IH. lia.
      * intros j _. cbn [INR pow]. rewrite Rmult_0_l, cos_0, Rmult_1_l. ring.
    + rewrite (functional_ext (g := fun j => 1 / 2 * (cos (angle n j) ^ k * cos (INR (S (S m)) * angle n j)) + 1 / 2 * (cos (angle n j) ^ k * cos (INR m * angle n j)))).
      * rewrite functional_add, !functional_scal, !IH by lia. lra.
      * intros j _. replace (INR (S (S m)) * angle n j) with (INR (S m) * angle n j + angle n j) by (rewrite !S_INR; ring).
        replace (INR m * angle n j) with (INR (S m) * angle n j - angle n j) by (rewrite !S_INR; ring). rewrite cos_plus, cos_minus. cbn [pow]. field.
Qed.
Lemma functional_pow n k : (k < n)%nat -> functional n (fun j => node n j ^ k) = 0.
Proof.
  intros L. rewrite (functional_ext (g := fun j => cos (angle n j) ^ k * cos (INR 0 * angle n j))).
  - apply functional_powcos. lia.
  - intros j _. cbn [INR]. rewrite Rmult_0_l, cos_0. unfold node, angle. ring.
Qed.
Lemma functional_poly n p : (length p <= n)%nat -> functional n (fun j => peval p (node n j)) = 0.
Proof.
  assert (G : forall p k, (k + length p <= n)%nat -> functional n (fun j => node n j ^ k * peval p (node n j)) = 0).
  { clear p. induction p as [|a p IH]; intros k L; cbn [length peval] in *.
    - unfold functional. apply rsum_zero. intros. ring.
    - rewrite (functional_ext (g := fun j => a * node n j ^ k + node n j ^ S k * peval p (node n j))) by (intros; cbn [pow]; ring).
      rewrite functional_add, functional_scal, functional_pow, IH by lia. ring. }
  intros L. rewrite (functional_ext (g := fun j => node n j ^ 0 * peval p (node n j))) by (intros; cbn [pow]; ring). now apply G.
Qed.

(** ---- polynomials ---- *)
Fixpoint padd (p q : list R) : list R := match p, q with [], _ => q | _, [] => p | a :: p', b :: q' => (a + b) :: padd p' q' end.
Definition pscale (c : R) (p : list R) : list R := map (Rmult c) p.
Lemma peval_add p q x : peval (padd p q) x = peval p x + peval q x.
Proof. revert q. induction p as [|a p IH]; intros [|b q]; cbn [padd peval]; try lra. rewrite IH. ring. Qed.
Lemma peval_scale c p x : peval (pscale c p) x = c * peval p x.
Proof. induction p as [|a p IH]; cbn [pscale map peval]; [lra|]. change (map (Rmult c) p) with (pscale c p). rewrite IH. ring. Qed.
Lemma padd_length p q : length (padd p q) = Nat.max (length p) (length q).
Proof. revert q. induction p as [|a p IH]; intros [|b q]; cbn [padd length]; try reflexivity. now rewrite IH. Qed.
(** multiplication with (t - a) *)
Definition pfactor (a : R) (p : list R) : list R := padd (0 :: p) (pscale (- a) p).
Lemma peval_factor a p x : peval (pfactor a p) x = (x - a) * peval p x.
Proof. unfold pfactor. rewrite peval_add, peval_scale. cbn [peval]. ring. Qed.
Lemma pfactor_length a p : length (pfactor a p) = S (length p).
Proof. unfold pfactor, pscale. rewrite padd_length, map_length. cbn [length]. lia. Qed.
Fixpoint pquot (p : list R) (x : R) : list R := match p with [] => [] | _ :: r => padd r (pscale x (pquot r x)) end.
Lemma pquot_length p x : length (pquot p x) = (length p - 1)%nat.
Proof. induction p as [|a p IH]; [reflexivity|]. cbn [pquot length]. unfold pscale. rewrite padd_length, map_length, IH. lia. Qed.
Lemma pquot_ok p x y : peval p y - peval p x = (y - x) * peval (pquot p x) y.
Proof. induction p as [|a p IH]; cbn [pquot peval]; [ring|]. rewrite peval_add, peval_scale. replace (peval p x) with (peval p y - (y - x) * peval (pquot p x) y) by (rewrite <- IH; ring). ring. Qed.
Lemma pquot_slope p x : slope p x (peval (pquot p x) x).
Proof.
  unfold slope. induction p as [|a p IH].
  - cbn. intros e He. exists (mkposreal 1 Rlt_0_1). intros h Nh _. cbn. replace ((0 - 0) / h - 0) with 0 by (field; exact Nh). now rewrite Rabs_R0.
  - cbn [pquot]. rewrite peval_add, peval_scale.
    pose proof (derivable_pt_lim_plus _ _ _ _ _ (derivable_pt_lim_const a x) (derivable_pt_lim_mult _ _ _ _ _ (derivable_pt_lim_id x) IH)) as D.
    unfold id in D. match type of D with derivable_pt_lim _ _ ?d => replace (peval p x + x * peval (pquot p x) x) with d by ring end.
    intros e He. destruct (D e He) as [del Hd]. exists del. intros h Nh Sh. specialize (Hd h Nh Sh). cbn [peval]. unfold plus_fct, mult_fct, fct_cte in Hd. exact Hd.
Qed.
Lemma slope_unique p x d1 d2 : slope p x d1 -> slope p x d2 -> d1 = d2.
Proof. intros. eapply uniqueness_limite; eassumption. Qed.

(** ---- nodes ---- *)
Lemma node_inj n i j : (i <= n)%nat -> (j <= n)%nat -> node n i = node n j -> i = j.
Proof.
  intros Li Lj E. destruct (Nat.eq_dec n 0) as [->|Nz]; [lia|]. assert (Pn : 0 < INR n) by (apply lt_0_INR; lia). pose proof PI_RGT_0 as PP.
  assert (R : forall k, (k <= n)%nat -> 0 <= PI * INR k / INR n <= PI).
  { intros k Lk. pose proof (pos_INR k). pose proof (le_INR _ _ Lk). split.
    - apply Rmult_le_pos; [nra|]. left. now apply Rinv_0_lt_compat.
    - apply (Rmult_le_reg_r (INR n)); [exact Pn|]. replace (PI * INR k / INR n * INR n) with (PI * INR k) by (field; lra). nra. }
  assert (M : forall a b, (a < b)%nat -> (b <= n)%nat -> node n b < node n a).
  { intros a b L1 L2. destruct (R a ltac:(lia)), (R b L2). unfold node. apply cos_decreasing_1; try assumption.
    apply (Rmult_lt_reg_r (INR n)); [exact Pn|]. pose proof (lt_INR _ _ L1). replace (PI * INR a / INR n * INR n) with (PI * INR a) by (field; lra). replace (PI * INR b / INR n * INR n) with (PI * INR b) by (field; lra). nra. }
  destruct (Nat.lt_trichotomy i j) as [L|[L|L]]; [|exact L|]; [pose proof (M i j L Lj)|pose proof (M j i L Li)]; lra.
Qed.

Lemma exactAt_spec n x : (exists j, (j <= n)%nat /\ x = node n j /\ exactAt n x = S j) \/ ((forall j, (j <= n)%nat -> x <> node n j) /\ exactAt n x = 0%nat).
Proof.
  unfold exactAt, terms. assert (G : forall m, (m <= S n)%nat -> (exists j, (j < m)%nat /\ x = node n j /\ fold_left (fun e j => if Req_EM_T (x - node n j) 0 then S j else e) (seq 0 m) 0%nat = S j) \/
    ((forall j, (j < m)%nat -> x <> node n j) /\ fold_left (fun e j => if Req_EM_T (x - node n j) 0 then S j else e) (seq 0 m) 0%nat = 0%nat)).
  { induction m as [|m IH]; intros L; [right; split; [intros; lia|reflexivity]|]. rewrite seq_S, fold_left_app. cbn [fold_left]. rewrite Nat.add_0_l.
    destruct (Req_EM_T (x - node n m) 0) as [E|N].
    - left. exists m. split; [lia|]. split; [lra|reflexivity].
    - destruct (IH ltac:(lia)) as [(j & Lj & E & F)|[H F]]; [left; exists j; split; [lia|]; auto|]. right. split; [|exact F]. intros j Lj. destruct (Nat.eq_dec j m) as [->|]; [lra|]. apply H. lia. }
  destruct (G (S n) (le_n _)) as [(j & Lj & E & F)|[H F]]; [left; exists j; split; [lia|]; auto|]. right. split; [|exact F]. intros j Lj. apply H. lia.
Qed.

(** ---- interpolation ---- *)
Lemma numer_poly n p x : (0 < n)%nat -> (length p <= S n)%nat -> (forall j, (j <= n)%nat -> x <> node n j) -> numerator n (fun j => peval p (node n j)) x = peval p x * denominator n x.
Proof.
  intros N L H. assert (E : numerator n (fun j => peval p (node n j)) x - peval p x * denominator n x = - functional n (fun j => peval (pquot p x) (node n j))).
  { unfold numerator, denominator, functional, terms. rewrite <- rsum_scal. replace (- rsum (S n) (fun j => baryWeight n j * peval (pquot p x) (node n j))) with (-1 * rsum (S n) (fun j => baryWeight n j * peval (pquot p x) (node n j))) by ring.
    rewrite <- rsum_scal. assert (Q : forall m f g, rsum m f - rsum m g = rsum m (fun j => f j - g j)) by (intros m f g; induction m as [|m IH]; cbn [rsum]; [lra|rewrite <- IH; ring]).
    rewrite Q. apply rsum_ext. intros j Lj. pose proof (H j ltac:(lia)) as Hj. pose proof (pquot_ok p x (node n j)) as P.
    replace (peval p (node n j)) with (peval p x + (node n j - x) * peval (pquot p x) (node n j)) by (rewrite <- P; ring). field. lra. }
  rewrite functional_poly in E by (rewrite pquot_length; lia). lra.
Qed.
Fixpoint nodal (n : nat) (k : nat) : list R := match k with O => [1] | S k' => pfactor (node n k) (nodal n k') end.
Lemma nodal_length n k : length (nodal n k) = S k.
Proof. induction k as [|k IH]; [reflexivity|]. cbn [nodal]. now rewrite pfactor_length, IH. Qed.
Lemma nodal_zero n k j : (0 < j <= k)%nat -> peval (nodal n k) (node n j) = 0.
Proof. induction k as [|k IH]; intros L; [lia|]. cbn [nodal]. rewrite peval_factor. destruct (Nat.eq_dec j (S k)) as [->|]; [ring|]. rewrite IH by lia. ring. Qed.
Lemma nodal_nz n k : (k <= n)%nat -> peval (nodal n k) (node n 0) <> 0.
Proof. induction k as [|k IH]; intros L; [cbn; lra|]. cbn [nodal]. rewrite peval_factor. apply Rmult_integral_contrapositive_currified; [|apply IH; lia]. intros E. assert (0%nat = S k) by (apply (@node_inj n); try lia; lra). lia. Qed.
Lemma denominator_nz n x : (0 < n)%nat -> (forall j, (j <= n)%nat -> x <> node n j) -> denominator n x <> 0.
Proof.
  intros N H Z. assert (E : numerator n (fun j => peval (nodal n n) (node n j)) x = 0) by (rewrite numer_poly; [rewrite Z; ring|exact N|rewrite nodal_length; lia|exact H]).
  unfold numerator in E. rewrite (@rsum_single _ _ 0%nat) in E; [|unfold terms; lia|intros j Lj Nj; rewrite nodal_zero by (unfold terms in Lj; lia); ring].
  apply Rmult_integral in E. destruct E as [E|E]; [|now apply (nodal_nz (le_n n))]. unfold Rdiv in E. apply Rmult_integral in E. destruct E as [E|E]; [now apply (@baryWeight_nz n 0%nat N)|].
  revert E. apply Rinv_neq_0_compat. specialize (H 0%nat ltac:(lia)). lra.
Qed.
Lemma evaluate_poly n p x : (0 < n)%nat -> (length p <= S n)%nat -> evaluateAt n (fun j => peval p (node n j)) x = peval p x.
Proof.
  intros N L. unfold evaluateAt. destruct (exactAt_spec n x) as [(j & Lj & -> & ->)|[H ->]]; [reflexivity|]. rewrite numer_poly by assumption. field. now apply denominator_nz.
Qed.
Lemma evaluate_ext n v w x : (forall j, (j <= n)%nat -> v j = w j) -> evaluateAt n v x = evaluateAt n w x.
Proof.
  intros H. unfold evaluateAt. destruct (exactAt_spec n x) as [(j & Lj & _ & ->)|[_ ->]]; [now apply H|]. f_equal. apply rsum_ext. intros j Lj. rewrite H by (unfold terms in Lj; lia). reflexivity.
Qed.
Lemma evaluate_node n w j : (j <= n)%nat -> evaluateAt n w (node n j) = w j.
Proof. intros L. unfold evaluateAt. destruct (exactAt_spec n (node n j)) as [(i & Li & E & ->)|[H _]]; [apply node_inj in E; [now subst|lia|lia]|]. now destruct (H j L). Qed.
Lemma evaluate_units n v x : (0 < n)%nat -> rsum (S n) (fun j => evaluateAt n (fun l => if (l =? j)%nat then 1 else 0) x * v j) = evaluateAt n v x.
Proof.
  intros N. unfold evaluateAt. destruct (exactAt_spec n x) as [(k & Lk & _ & ->)|[H ->]].
  - rewrite (@rsum_single _ _ k); [rewrite Nat.eqb_refl; ring|lia|]. intros j _ Nj. destruct (Nat.eqb_spec k j); [congruence|ring].
  - pose proof (denominator_nz N H) as D. transitivity (/ denominator n x * rsum (S n) (fun j => baryWeight n j / (x - node n j) * v j)).
    + rewrite <- rsum_scal. apply rsum_ext. intros j Lj. unfold numerator, terms. rewrite (@rsum_single _ _ j); [|exact Lj|intros k _ Nk; destruct (Nat.eqb_spec k j); [congruence|ring]].
      rewrite Nat.eqb_refl. field. split; [|exact D]. specialize (H j ltac:(lia)). lra.
    + unfold numerator, terms. field. exact D.
Qed.
(** every vector of values at the nodes is interpolated by a polynomial *)
Lemma interpolant_exists n w : exists p, length p = S n /\ forall j, (j <= n)%nat -> peval p (node n j) = w j.
Proof.
  assert (P : forall k, (k <= n)%nat -> exists q, length q = S k /\ (forall j, (j < k)%nat -> peval q (node n j) = 0) /\ peval q (node n k) <> 0).
  { intros k Lk. set (prod := fix prod m := match m with O => [1] | S m' => pfactor (node n m') (prod m') end).
    exists (prod k). assert (LN : forall m, length (prod m) = S m) by (induction m as [|m IH]; [reflexivity|cbn [prod]; now rewrite pfactor_length, IH]). split; [apply LN|]. split.
    - assert (Z : forall m j, (j < m)%nat -> peval (prod m) (node n j) = 0).
      { induction m as [|m IH]; intros j L; [lia|]. cbn [prod]. rewrite peval_factor. destruct (Nat.eq_dec j m) as [->|]; [ring|]. rewrite IH by lia. ring. }
      intros j. apply Z.
    - assert (Z : forall m, (m <= k)%nat -> peval (prod m) (node n k) <> 0).
      { induction m as [|m IH]; intros L; [cbn; lra|]. cbn [prod]. rewrite peval_factor. apply Rmult_integral_contrapositive_currified; [|apply IH; lia]. intros E. assert (k = m) by (apply (@node_inj n); try lia; lra). lia. }
      now apply Z. }
  assert (Q : forall k, (k <= n)%nat -> exists p, length p = S k /\ forall j, (j <= k)%nat -> peval p (node n j) = w j).
  { induction k as [|k IH]; intros Lk.
    - exists [w 0%nat]. split; [reflexivity|]. intros j Lj. assert (j = 0%nat) by lia. subst. cbn. ring.
    - destruct (IH ltac:(lia)) as (p & Lp & Hp). destruct (P (S k) Lk) as (q & Lq & Zq & Nq).
      exists (padd p (pscale ((w (S k) - peval p (node n (S k))) / peval q (node n (S k))) q)). split; [unfold pscale; rewrite padd_length, map_length, Lp, Lq; lia|].
      intros j Lj. rewrite peval_add, peval_scale. destruct (Nat.eq_dec j (S k)) as [->|Nj]; [field; exact Nq|]. rewrite (Hp j) by lia. rewrite (Zq j) by lia. ring. }
  apply Q. lia.
Qed.

(** ---- differentiation ---- *)
Lemma diffWeight_inv n k : (0 < n)%nat -> diffWeight n k = / baryWeight n k.
Proof.
  intros N. assert (S1 : (-1) ^ k * (-1) ^ k = 1) by (rewrite <- Rpow_mult_distr; replace (-1 * -1) with 1 by ring; apply pow1).
  assert (Z : (-1) ^ k <> 0) by (apply pow_nonzero; lra).
  apply (Rmult_eq_reg_l (baryWeight n k)); [|now apply baryWeight_nz]. rewrite Rinv_r by (now apply baryWeight_nz).
  unfold diffWeight. rewrite baryWeight_ends by exact N. unfold endWeight. destruct (Nat.eqb_spec k 0), (Nat.eqb_spec k n); try lia; nra.
Qed.
Lemma derivative_poly n p i : (0 < n)%nat -> (length p <= S n)%nat -> (i <= n)%nat -> slope p (node n i) (derivativeWeights n (fun j => peval p (node n j)) i).
Proof.
  intros N L Li. set (x := node n i). set (q := pquot p x). replace (derivativeWeights n (fun j => peval p (node n j)) i) with (peval q x); [apply pquot_slope|].
  assert (B : baryWeight n i <> 0) by now apply baryWeight_nz.
  assert (F : functional n (fun j => peval q (node n j)) = 0) by (apply functional_poly; unfold q; rewrite pquot_length; lia).
  assert (X : forall j, (j <= n)%nat -> j <> i -> x - node n j <> 0) by (intros j Lj Nj E; apply Nj; apply (@node_inj n); try lia; unfold x in E; lra).
  (* the matrix applied to the values is a sum of differences *)
  assert (E : derivativeWeights n (fun j => peval p (node n j)) i = rsum (S n) (fun j => if (j =? i)%nat then 0 else baryWeight n j / baryWeight n i / (x - node n j) * (peval p (node n j) - peval p x))).
  { unfold derivativeWeights, terms. 
    assert (E1 : forall j, (j < S n)%nat -> diffMatrix n i j * peval p (node n j) = diffRaw n i j * peval p (node n j) + (if (j =? i)%nat then - rsum (S n) (diffRaw n i) * peval p x else 0)).
    { intros j _. unfold diffMatrix, terms. rewrite (Nat.eqb_sym j i). destruct (Nat.eqb_spec i j) as [<-|]; unfold x; ring. }
    rewrite (rsum_ext E1), rsum_add. rewrite (@rsum_single (S n) (fun j => if (j =? i)%nat then _ else 0) i); [|lia|intros j _ Nj; destruct (Nat.eqb_spec j i); [congruence|reflexivity]].
    rewrite Nat.eqb_refl. replace (- rsum (S n) (diffRaw n i) * peval p x) with (- peval p x * rsum (S n) (diffRaw n i)) by ring. rewrite <- rsum_scal, <- rsum_add. apply rsum_ext. intros j Lj.
    unfold diffRaw. rewrite !diffWeight_inv by exact N. rewrite (Nat.eqb_sym i j). fold x. destruct (Nat.eqb_spec j i) as [->|Nj].
    - fold x. ring.
    - pose proof (X j ltac:(lia) Nj). pose proof (@baryWeight_nz n j N). field. repeat split; assumption. }
  rewrite E. symmetry. transitivity (- / baryWeight n i * (functional n (fun j => peval q (node n j)) - baryWeight n i * peval q x)); [|rewrite F; field; exact B].
  replace (functional n (fun j => peval q (node n j)) - baryWeight n i * peval q x) with (rsum (S n) (fun j => if (j =? i)%nat then 0 else baryWeight n j * peval q (node n j))).
  - rewrite <- rsum_scal. apply rsum_ext. intros j Lj. destruct (Nat.eqb_spec j i) as [->|Nj]; [ring|]. rewrite pquot_ok. fold q. pose proof (X j ltac:(lia) Nj). field. auto.
  - unfold functional. enough (rsum (S n) (fun j => baryWeight n j * peval q (node n j)) = rsum (S n) (fun j => if (j =? i)%nat then 0 else baryWeight n j * peval q (node n j)) + baryWeight n i * peval q x) by lra.
    transitivity (rsum (S n) (fun j => (if (j =? i)%nat then 0 else baryWeight n j * peval q (node n j)) + (if (j =? i)%nat then baryWeight n j * peval q (node n j) else 0))).
    + apply rsum_ext. intros j _. destruct (j =? i)%nat; ring.
    + rewrite rsum_add. f_equal. rewrite (@rsum_single _ _ i); [now rewrite Nat.eqb_refl|lia|]. intros j _ Nj. destruct (Nat.eqb_spec j i); [congruence|reflexivity].
Qed.
Lemma derivative_ext n v w i : (forall j, (j <= n)%nat -> v j = w j) -> derivativeWeights n v i = derivativeWeights n w i.
Proof. intros H. apply rsum_ext. intros j Lj. rewrite H by (unfold terms in Lj; lia). reflexivity. Qed.

(** ---- three dimensions ---- *)
Lemma index_inj m i j k i' j' k' : (j < m)%nat -> (k < m)%nat -> (j' < m)%nat -> (k' < m)%nat -> (i * m * m + j * m + k = i' * m * m + j' * m + k')%nat -> i = i' /\ j = j' /\ k = k'.
Proof.
  intros Lj Lk Lj' Lk' E. destruct (Nat.div_mod_unique m (i * m + j) (i' * m + j') k k' Lk Lk') as [E1 E2]; [lia|]. destruct (Nat.div_mod_unique m i i' j j' Lj Lj') as [E3 E4]; [lia|]. auto.
Qed.
Lemma assigned n w d memory idx v : (exists a, In a (assignments3d n w d) /\ fst a = idx) -> (forall a, In a (assignments3d n w d) -> fst a = idx -> snd a = v) ->
  derivativeWeights3d n w d memory idx = v.
Proof.
  intros (a & I & E) H. unfold derivativeWeights3d. destruct (find _ _) as [b|] eqn:F.
  - apply find_some in F. destruct F as [F1 F2]. apply Nat.eqb_eq in F2. apply H; [now apply in_rev|exact F2].
  - exfalso. assert (I2 : In a (rev (assignments3d n w d))) by now apply -> in_rev. pose proof (find_none _ _ F _ I2) as Z. cbn in Z. rewrite E, Nat.eqb_refl in Z. discriminate.
Qed.
Lemma derivative3d n w memory i j k : (i <= n)%nat -> (j <= n)%nat -> (k <= n)%nat -> let m := S n in
  derivativeWeights3d n w 2 memory (i * m * m + j * m + k) = derivativeWeights n (fun l => w (i * m * m + j * m + l)%nat) k /\
  derivativeWeights3d n w 1 memory (i * m * m + j * m + k) = derivativeWeights n (fun l => w (i * m * m + l * m + k)%nat) j /\
  derivativeWeights3d n w 0 memory (i * m * m + j * m + k) = derivativeWeights n (fun l => w (l * m * m + j * m + k)%nat) i.
Proof.
  intros Li Lj Lk m. assert (SQ : forall x, (x <= n)%nat -> In x (seq 0 (terms n))) by (intros; apply in_seq; unfold terms; lia).
  assert (SB : forall x, In x (seq 0 (terms n)) -> (x < m)%nat) by (intros x I; apply in_seq in I; unfold terms in I; unfold m; lia).
  assert (Bi : (i < m)%nat) by (unfold m; lia). assert (Bj : (j < m)%nat) by (unfold m; lia). assert (Bk : (k < m)%nat) by (unfold m; lia).
  change m with (terms n) in *. split; [|split]; apply assigned; unfold assignments3d.
  - eexists (_, _). split; [|reflexivity]. apply in_flat_map. exists i. split; [now apply SQ|]. apply in_flat_map. exists j. split; [now apply SQ|]. cbv zeta. apply in_map_iff. exists k. split; [reflexivity|now apply SQ].
  - intros a I E. apply in_flat_map in I. destruct I as (i' & Ii & I). apply in_flat_map in I. destruct I as (j' & Ij & I). cbv zeta in I. apply in_map_iff in I. destruct I as (k' & <- & Ik). cbn [fst snd] in *.
    apply index_inj in E; auto. destruct E as (-> & -> & ->). reflexivity.
  - eexists (_, _). split; [apply in_flat_map; exists i; split; [now apply SQ|]; apply in_flat_map; exists k; split; [now apply SQ|]; cbv zeta; apply in_map_iff; exists j; split; [reflexivity|now apply SQ]|]. cbn [fst]. lia.
  - intros a I E. apply in_flat_map in I. destruct I as (i' & Ii & I). apply in_flat_map in I. destruct I as (k' & Ik & I). cbv zeta in I. apply in_map_iff in I. destruct I as (j' & <- & Ij). cbn [fst snd] in *.
    replace (i' * terms n * terms n + k' + j' * terms n)%nat with (i' * terms n * terms n + j' * terms n + k')%nat in E by lia. apply index_inj in E; auto. destruct E as (-> & -> & ->).
    apply derivative_ext. intros l _. f_equal. lia.
  - eexists (_, _). split; [apply in_flat_map; exists j; split; [now apply SQ|]; apply in_flat_map; exists k; split; [now apply SQ|]; cbv zeta; apply in_map_iff; exists i; split; [reflexivity|now apply SQ]|]. cbn [fst]. lia.
  - intros a I E. apply in_flat_map in I. destruct I as (j' & Ij & I). apply in_flat_map in I. destruct I as (k' & Ik & I). cbv zeta in I. apply in_map_iff in I. destruct I as (i' & <- & Ii). cbn [fst snd] in *.
    replace (j' * terms n + k' + i' * terms n * terms n)%nat with (i' * terms n * terms n + j' * terms n + k')%nat in E by lia. apply index_inj in E; auto. destruct E as (-> & -> & ->).
    apply derivative_ext. intros l _. f_equal. lia.
Qed.
