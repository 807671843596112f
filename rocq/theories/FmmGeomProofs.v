(** Proofs for C16 (geometry), C21, C62. *)
From Coq Require Import Reals Lra Lia NArith ZArith List.
Import ListNotations.
From Verif Require Import BoxModel BoxSpec BoxProofs FmmModel FmmSpec FmmProofs FmmGeomModel.
Local Open Scope R_scope.

Definition side (o : octGeom) : R := px (ohi o) - px (olo o).
Definition isCube (o : octGeom) : Prop :=
  0 < side o /\ ohi o = (px (olo o) + side o, py (olo o) + side o, pz (olo o) + side o).

Lemma mkOctGeom_cube lb ub e : ple lb ub -> lb <> ub -> isCube (mkOctGeom lb ub e).
Proof.
  intros (Hx & Hy & Hz) Hne. unfold isCube, side, mkOctGeom. cbn [olo ohi].
  set (w := Rmax _ _). change (px (px lb + w, py lb + w, pz lb + w)) with (px lb + w).
  replace (px lb + w - px lb) with w by ring. split.
  - destruct lb as [[a b] c], ub as [[a' b'] c']. unfold px, py, pz in *. cbn [fst snd] in *. subst w.
    apply Rmax_case_strong; intros H; [apply Rmax_case_strong; intros H'|].
    + destruct (Rle_lt_or_eq_dec _ _ Hx) as [|E]; [lra|]. exfalso. apply Hne.
      assert (b = b') by (rewrite Rmax_left in H by lra; lra). assert (c = c') by (rewrite Rmax_left in H by lra; lra). congruence.
    + destruct (Rle_lt_or_eq_dec _ _ Hy) as [|E]; [lra|]. exfalso. apply Hne.
      assert (a = a') by lra. assert (c = c') by (rewrite Rmax_right in H by lra; lra). congruence.
    + destruct (Rle_lt_or_eq_dec _ _ Hz) as [|E]; [lra|]. exfalso. apply Hne.
      pose proof (Rmax_l (a' - a) (b' - b)). pose proof (Rmax_r (a' - a) (b' - b)).
      assert (a = a') by lra. assert (b = b') by lra. congruence.
  - reflexivity.
Qed.

Lemma shiftl1_pos l : 0 < IZR (Z.of_N (N.shiftl 1 l)).
Proof. apply IZR_lt. rewrite N.shiftl_mul_pow2. pose proof (N.pow_nonzero 2 l). lia. Qed.

Lemma cubeLower_coords o n l : cubeLower o n l =
  (px (olo o) + IZR (Z.of_N (cx n)) * cubeWidth o l, py (olo o) + IZR (Z.of_N (cy n)) * cubeWidth o l,
   pz (olo o) + IZR (Z.of_N (cz n)) * cubeWidth o l).
Proof. unfold cubeLower, cx, cy, cz. destruct (deMorton n) as [[x y] z]. reflexivity. Qed.
Lemma cubeUpper_coords o n l : cubeUpper o n l =
  (px (olo o) + IZR (Z.of_N (cx n) + 1) * cubeWidth o l, py (olo o) + IZR (Z.of_N (cy n) + 1) * cubeWidth o l,
   pz (olo o) + IZR (Z.of_N (cz n) + 1) * cubeWidth o l).
Proof. unfold cubeUpper, cx, cy, cz. destruct (deMorton n) as [[x y] z]. reflexivity. Qed.

(** one coordinate *)
Lemma leafCoord_ok L lo w p : 0 < w ->
  (Z.of_N (leafCoord L lo (lo + w) p) <= Z.of_N (2 ^ L) - 1)%Z /\
  (lo <= p <= lo + w ->
   lo + IZR (Z.of_N (leafCoord L lo (lo + w) p)) * (w / IZR (Z.of_N (N.shiftl 1 L))) <= p <=
   lo + IZR (Z.of_N (leafCoord L lo (lo + w) p) + 1) * (w / IZR (Z.of_N (N.shiftl 1 L))) /\
   forall k : N, (k < 2 ^ L)%N ->
     lo + IZR (Z.of_N k) * (w / IZR (Z.of_N (N.shiftl 1 L))) <= p <
       lo + IZR (Z.of_N k + 1) * (w / IZR (Z.of_N (N.shiftl 1 L))) -> leafCoord L lo (lo + w) p = k).
Proof.
  intros Hw. unfold leafCoord, getNodesPerSide.
  set (M := Z.of_N (N.shiftl 1 L)).
  assert (HM : (1 <= M)%Z). { subst M. rewrite N.shiftl_mul_pow2. pose proof (N.pow_nonzero 2 L). lia. }
  assert (EM : Z.of_N (2 ^ L) = M). { subst M. rewrite N.shiftl_mul_pow2. lia. }
  assert (HMr : 1 <= IZR M) by (now apply IZR_le).
  replace (lo + w - lo) with w by ring.
  set (u := Rmax 0 ((p - lo) / w) * IZR M).
  assert (Hu : 0 <= u). { apply Rmult_le_pos; [apply Rmax_l|lra]. }
  destruct (base_Int_part u) as [B1 B2].
  assert (HI : (0 <= Int_part u)%Z).
  { apply Z.lt_succ_r. apply lt_IZR. rewrite <- Z.add_1_r, plus_IZR. lra. }
  rewrite Z2N.id by lia. split; [lia|]. intros Hp.
  assert (Eu : u = (p - lo) / w * IZR M).
  { unfold u. rewrite Rmax_right; [reflexivity|]. apply Rmult_le_pos; [lra|]. left. now apply Rinv_0_lt_compat. }
  assert (Epu : p = lo + u * (w / IZR M)).
  { rewrite Eu. field. lra. }
  assert (Hd : 0 < w / IZR M) by (apply Rdiv_lt_0_compat; lra).
  assert (HuM : u <= IZR M).
  { apply Rmult_le_reg_r with (w / IZR M); [exact Hd|].
    replace (IZR M * (w / IZR M)) with w by (field; lra). lra. }
  split.
  - rewrite Epu at 1 2. split; apply Rplus_le_compat_l, Rmult_le_compat_r; try lra.
    + apply Rle_trans with (IZR (Int_part u)); [apply IZR_le; lia|exact B1].
    + rewrite plus_IZR. destruct (Z.le_gt_cases (Int_part u) (M - 1)).
      * rewrite Z.min_l by lia. lra.
      * rewrite Z.min_r by lia. rewrite minus_IZR. lra.
  - intros k Hk [H1 H2]. rewrite Epu in H1, H2.
    assert (H1' : IZR (Z.of_N k) <= u).
    { apply Rmult_le_reg_r with (w / IZR M); [exact Hd|]. lra. }
    assert (H2' : u < IZR (Z.of_N k + 1)).
    { apply Rmult_lt_reg_r with (w / IZR M); [exact Hd|]. lra. }
    assert (EI : Int_part u = Z.of_N k).
    { assert ((Int_part u < Z.of_N k + 1)%Z) by (apply lt_IZR; lra).
      assert ((Z.of_N k < Int_part u + 1)%Z). { apply lt_IZR. rewrite plus_IZR. lra. } lia. }
    rewrite EI. rewrite Z.min_l by lia. apply N2Z.id.
Qed.

Definition inCube (o : octGeom) (n l : N) (p : point) : Prop :=
  ple (cubeLower o n l) p /\ ple p (cubeUpper o n l).
Definition plt (p q : point) : Prop := px p < px q /\ py p < py q /\ pz p < pz q.

Lemma leaf_lookup o L p : (L <= 10)%N -> isCube o ->
  exists n, getLeafContainingPoint o L p = Some n /\ onLevel L n /\
    (ple (olo o) p -> ple p (ohi o) ->
       inCube o n L p /\
       forall m, onLevel L m -> ple (cubeLower o m L) p -> plt p (cubeUpper o m L) -> m = n).
Proof.
  intros HL [Hw Ehi]. unfold getLeafContainingPoint.
  rewrite Ehi. cbn [px py pz fst snd]. unfold px, py, pz in *. cbn [fst snd].
  fold (px (olo o)). fold (py (olo o)). fold (pz (olo o)). fold (px p) (py p) (pz p).
  destruct (leafCoord_ok L (px (olo o)) (side o) (px p) Hw) as [X1 X2].
  destruct (leafCoord_ok L (py (olo o)) (side o) (py p) Hw) as [Y1 Y2].
  destruct (leafCoord_ok L (pz (olo o)) (side o) (pz p) Hw) as [Z1 Z2].
  pose proof (pow_le_1024 L HL) as P. pose proof (N.pow_nonzero 2 L).
  rewrite morton_some by lia. eexists. split; [reflexivity|].
  split; [apply mor_level; lia|].
  intros (Ax & Ay & Az) (Bx & By & Bz). 
  unfold px, py, pz in Bx, By, Bz. cbn [fst snd] in Bx, By, Bz.
  fold (px (olo o)) in Bx. fold (py (olo o)) in By. fold (pz (olo o)) in Bz.
  fold (px p) in Bx. fold (py p) in By. fold (pz p) in Bz.
  destruct (X2 (conj Ax Bx)) as [X3 X4]. destruct (Y2 (conj Ay By)) as [Y3 Y4]. destruct (Z2 (conj Az Bz)) as [Z3 Z4].
  destruct (coords_mor (leafCoord L (px (olo o)) (px (olo o) + side o) (px p))
                       (leafCoord L (py (olo o)) (py (olo o) + side o) (py p))
                       (leafCoord L (pz (olo o)) (pz (olo o) + side o) (pz p))) as (C1 & C2 & C3); try lia.
  split.
  - unfold inCube, ple. rewrite cubeLower_coords, cubeUpper_coords, C1, C2, C3.
    unfold cubeWidth. fold (side o). unfold px, py, pz in *. cbn [fst snd] in *. tauto.
  - intros m Hm L1 U1. apply (same_coords L); try assumption; [apply mor_level; lia| | |].
    all: destruct (coords L m HL Hm) as (M1 & M2 & M3 & _).
    all: rewrite ?C1, ?C2, ?C3; symmetry.
    all: unfold ple, plt in *; rewrite cubeLower_coords in L1; rewrite cubeUpper_coords in U1;
      unfold cubeWidth in *; fold (side o) in *; unfold px, py, pz in *; cbn [fst snd] in *.
    + apply X4; [exact M1|]. tauto.
    + apply Y4; [exact M2|]. tauto.
    + apply Z4; [exact M3|]. tauto.
Qed.

(** ---- children tile the parent ---- *)
Lemma cubeWidth_half o l : cubeWidth o l = 2 * cubeWidth o (l + 1).
Proof.
  unfold cubeWidth. rewrite !N.shiftl_mul_pow2, !N.mul_1_l, N.pow_add_r. change (2 ^ 1)%N with 2%N.
  rewrite N2Z.inj_mul, mult_IZR. change (IZR (Z.of_N 2)) with 2. field.
  apply not_0_IZR. pose proof (N.pow_nonzero 2 l). lia.
Qed.

Lemma half_coord (c : N) (w : R) : 0 <= w ->
  IZR (Z.of_N (c / 2)) * (2 * w) <= IZR (Z.of_N c) * w /\
  IZR (Z.of_N c + 1) * w <= IZR (Z.of_N (c / 2) + 1) * (2 * w).
Proof.
  intros Hw. pose proof (N.div_mod c 2 ltac:(lia)) as E. pose proof (N.mod_lt c 2 ltac:(lia)) as H.
  rewrite !plus_IZR.
  assert (H1 : IZR (Z.of_N (c / 2)) * 2 <= IZR (Z.of_N c)).
  { rewrite <- mult_IZR. apply IZR_le. revert E H. generalize (c / 2)%N (c mod 2)%N. lia. }
  assert (H2 : IZR (Z.of_N c) + 1 <= IZR (Z.of_N (c / 2)) * 2 + 2).
  { rewrite <- mult_IZR, <- !plus_IZR. apply IZR_le. revert E H. generalize (c / 2)%N (c mod 2)%N. lia. }
  split.
  - replace (IZR (Z.of_N (c / 2)) * (2 * w)) with (IZR (Z.of_N (c / 2)) * 2 * w) by ring. now apply Rmult_le_compat_r.
  - replace ((IZR (Z.of_N (c / 2)) + 1) * (2 * w)) with ((IZR (Z.of_N (c / 2)) * 2 + 2) * w) by ring. now apply Rmult_le_compat_r.
Qed.

Lemma cubeWidth_nonneg o l : isCube o -> 0 <= cubeWidth o l.
Proof. intros [H _]. left. unfold cubeWidth. fold (side o). apply Rdiv_lt_0_compat; [exact H|apply shiftl1_pos]. Qed.

Lemma child_in_parent o l c p : (l < 10)%N -> isCube o -> onLevel (l + 1) c ->
  inCube o c (l + 1) p -> inCube o (getParent c) l p.
Proof.
  intros Hl Ho Hc. destruct (parent_coords l c Hl Hc) as (_ & E1 & E2 & E3).
  unfold inCube, ple. rewrite !cubeLower_coords, !cubeUpper_coords, E1, E2, E3, (cubeWidth_half o l).
  pose proof (cubeWidth_nonneg o (l + 1) Ho) as W.
  destruct (half_coord (cx c) _ W), (half_coord (cy c) _ W), (half_coord (cz c) _ W).
  unfold px, py, pz in *. cbn [fst snd]. lra.
Qed.

Lemma split_coord (c : N) (w a x : R) : 0 <= w ->
  a + IZR (Z.of_N c) * (2 * w) <= x <= a + IZR (Z.of_N c + 1) * (2 * w) ->
  exists e, (e < 2)%N /\ a + IZR (Z.of_N (2 * c + e)) * w <= x <= a + IZR (Z.of_N (2 * c + e) + 1) * w.
Proof.
  intros Hw [H1 H2]. rewrite plus_IZR in H2.
  destruct (Rle_lt_dec x (a + (2 * IZR (Z.of_N c) + 1) * w)) as [H|H].
  - exists 0%N. split; [lia|]. rewrite N.add_0_r, N2Z.inj_mul, plus_IZR, mult_IZR. change (IZR (Z.of_N 2)) with 2. lra.
  - exists 1%N. split; [lia|]. rewrite N2Z.inj_add, N2Z.inj_mul, !plus_IZR, mult_IZR.
    change (IZR (Z.of_N 2)) with 2. change (IZR (Z.of_N 1)) with 1. lra.
Qed.

Lemma parent_covered o l n p : (l < 10)%N -> isCube o -> onLevel l n -> inCube o n l p ->
  exists c, getParent c = n /\ onLevel (l + 1) c /\ inCube o c (l + 1) p.
Proof.
  intros Hl Ho Hn [Hlo Hup]. destruct (coords l n ltac:(lia) Hn) as (Cx & Cy & Cz & En).
  unfold ple in Hlo, Hup. rewrite cubeLower_coords in Hlo. rewrite cubeUpper_coords in Hup.
  rewrite (cubeWidth_half o l) in Hlo, Hup. unfold px, py, pz in *. cbn [fst snd] in *.
  destruct Hlo as (L1 & L2 & L3), Hup as (U1 & U2 & U3).
  pose proof (cubeWidth_nonneg o (l + 1) Ho) as W.
  destruct (split_coord (cx n) _ _ _ W (conj L1 U1)) as (a & Ha & A).
  destruct (split_coord (cy n) _ _ _ W (conj L2 U2)) as (b & Hb & B).
  destruct (split_coord (cz n) _ _ _ W (conj L3 U3)) as (c & Hc & C).
  assert (P : (2 ^ l <= 512)%N). { change 512%N with (2 ^ 9)%N. apply N.pow_le_mono_r; lia. }
  exists (mor (2 * cx n + a) (2 * cy n + b) (2 * cz n + c)).
  assert (Eg : mor (2 * cx n + a) (2 * cy n + b) (2 * cz n + c) = (8 * n + a + 2 * b + 4 * c)%N).
  { rewrite mor_children by lia. now rewrite <- En. }
  split; [|split].
  - rewrite Eg, getParent_div. symmetry. apply N.div_unique with (r := (a + 2 * b + 4 * c)%N); lia.
  - unfold onLevel in *. rewrite Eg, N.pow_add_r. change (8 ^ 1)%N with 8%N. lia.
  - unfold inCube, ple. rewrite cubeLower_coords, cubeUpper_coords.
    destruct (coords_mor (2 * cx n + a) (2 * cy n + b) (2 * cz n + c)) as (-> & -> & ->); try lia.
    unfold px, py, pz. cbn [fst snd]. tauto.
Qed.

(** ---- element diameters ---- *)
Definition sq (p : point) : R := px p * px p + py p * py p + pz p * pz p.
Lemma sq_nonneg p : 0 <= sq p.
Proof. unfold sq. pose proof (Rle_0_sqr (px p)). pose proof (Rle_0_sqr (py p)). pose proof (Rle_0_sqr (pz p)). unfold Rsqr in *. lra. Qed.
Lemma norm_nonneg p : 0 <= norm p.
Proof. apply sqrt_pos. Qed.
Lemma cross_le a b : norm (cross a b) <= norm a * norm b.
Proof.
  unfold norm. rewrite <- sqrt_mult by apply sq_nonneg. apply sqrt_le_1_alt.
  unfold cross, px, py, pz. destruct a as [[a1 a2] a3], b as [[b1 b2] b3]. cbn [fst snd].
  assert (H : 0 <= (a1 * b1 + a2 * b2 + a3 * b3) * (a1 * b1 + a2 * b2 + a3 * b3)) by apply Rle_0_sqr.
  lra.
Qed.
Lemma cross_sub a b : norm (cross a (vsub a b)) = norm (cross a b).
Proof.
  unfold norm, cross, vsub, px, py, pz. destruct a as [[a1 a2] a3], b as [[b1 b2] b3]. cbn [fst snd].
  f_equal. ring.
Qed.
Lemma cross_sub2 a b : norm (cross b (vsub a b)) = norm (cross a b).
Proof.
  unfold norm, cross, vsub, px, py, pz. destruct a as [[a1 a2] a3], b as [[b1 b2] b3]. cbn [fst snd].
  f_equal. ring.
Qed.

Definition nondegenerate (t : tri) : Prop :=
  let '(p, q, r) := t in 0 < norm (cross (vsub q p) (vsub r p)).

Lemma sides_le_diameter p q r : nondegenerate (p, q, r) ->
  norm (vsub q p) <= elementDiameter (p, q, r) /\ norm (vsub r p) <= elementDiameter (p, q, r) /\
  norm (vsub q r) <= elementDiameter (p, q, r).
Proof.
  cbn [nondegenerate elementDiameter]. set (a := vsub q p). set (b := vsub r p). intros H.
  assert (E : norm (vsub q r) = norm (vsub a b)).
  { unfold a, b, norm, vsub, px, py, pz. destruct p as [[? ?] ?], q as [[? ?] ?], r as [[? ?] ?]. cbn [fst snd]. f_equal. ring. }
  rewrite E. set (X := norm (cross a b)) in *.
  assert (D : forall u v, 0 <= u -> X <= v -> u <= u * v / X).
  { intros u v Hu Hv. apply Rmult_le_reg_r with X; [exact H|].
    replace (u * v / X * X) with (u * v) by (field; lra). now apply Rmult_le_compat_l. }
  pose proof (norm_nonneg a). pose proof (norm_nonneg b). pose proof (norm_nonneg (vsub a b)).
  split; [|split].
  - replace (norm a * norm b * norm (vsub a b)) with (norm a * (norm b * norm (vsub a b))) by ring.
    apply D; [assumption|]. unfold X. rewrite <- (cross_sub2 a b). apply cross_le.
  - replace (norm a * norm b * norm (vsub a b)) with (norm b * (norm a * norm (vsub a b))) by ring.
    apply D; [assumption|]. unfold X. rewrite <- (cross_sub a b). apply cross_le.
  - replace (norm a * norm b * norm (vsub a b)) with (norm (vsub a b) * (norm a * norm b)) by ring.
    apply D; [assumption|]. apply cross_le.
Qed.

Lemma max_diameter_ge ts t : In t ts -> elementDiameter t <= maximumElementDiameter ts.
Proof.
  unfold maximumElementDiameter. generalize 0.
  assert (M : forall ts r, r <= fold_left (fun result t => if gtb (elementDiameter t) result then elementDiameter t else result) ts r).
  { clear. induction ts as [|s ts' IH]; intros r; cbn [fold_left]; [lra|].
    eapply Rle_trans; [|apply IH]. unfold gtb. destruct (Rlt_dec r (elementDiameter s)); lra. }
  induction ts as [|s ts IH]; intros r Hin; [contradiction|]. cbn [fold_left].
  destruct Hin as [->|Hin]; [|now apply IH].
  eapply Rle_trans; [|apply M]. unfold gtb. destruct (Rlt_dec r (elementDiameter t)); lra.
Qed.
Lemma max_diameter_attained ts : (forall t, In t ts -> 0 <= elementDiameter t) ->
  ts <> [] -> exists t, In t ts /\ maximumElementDiameter ts = elementDiameter t.
Proof.
  unfold maximumElementDiameter. intros Hp Hne.
  assert (M : forall ts r, (fold_left (fun result t => if gtb (elementDiameter t) result then elementDiameter t else result) ts r = r)
     \/ exists t, In t ts /\ fold_left (fun result t => if gtb (elementDiameter t) result then elementDiameter t else result) ts r = elementDiameter t).
  { clear. induction ts as [|s ts' IH]; intros r; cbn [fold_left]; [now left|].
    destruct (IH (if gtb (elementDiameter s) r then elementDiameter s else r)) as [E|(t & Ht & E)].
    - rewrite E. destruct (gtb (elementDiameter s) r); [right; exists s; split; [now left|reflexivity]|now left].
    - right. exists t. split; [now right|exact E]. }
  destruct (M ts 0) as [E|H]; [|exact H].
  destruct ts as [|t ts]; [congruence|]. exists t. split; [now left|].
  assert (H1 : elementDiameter t <= 0).
  { rewrite <- E. apply (max_diameter_ge (t :: ts)). now left. }
  rewrite E. specialize (Hp t (or_introl eq_refl)). lra.
Qed.

Lemma min_diameter_spec ts :
  (ts = [] -> minimumElementDiameter ts = None) /\
  (ts <> [] -> exists t, In t ts /\ minimumElementDiameter ts = Some (elementDiameter t) /\
     forall s, In s ts -> elementDiameter t <= elementDiameter s).
Proof.
  split; [intros ->; reflexivity|]. intros Hne. unfold minimumElementDiameter.
  destruct ts as [|t0 ts]; [congruence|]. cbn [fold_left]. clear Hne.
  assert (M : forall ts t, exists u, In u (t :: ts) /\
    fold_left (fun result t => match result with None => Some (elementDiameter t)
      | Some r => if gtb r (elementDiameter t) then Some (elementDiameter t) else Some r end) ts (Some (elementDiameter t))
      = Some (elementDiameter u) /\ forall s, In s (t :: ts) -> elementDiameter u <= elementDiameter s).
  { clear. induction ts as [|s ts IH]; intros t; cbn [fold_left].
    - exists t. split; [now left|]. split; [reflexivity|]. intros s [<-|[]]. lra.
    - unfold gtb. destruct (Rlt_dec (elementDiameter s) (elementDiameter t)) as [H|H].
      + destruct (IH s) as (u & Hu & E & Hm). exists u. split; [now right|]. split; [exact E|].
        intros v [<-|Hv]; [|now apply Hm]. specialize (Hm s (or_introl eq_refl)). lra.
      + destruct (IH t) as (u & Hu & E & Hm). exists u. split; [destruct Hu; [now left|now right; right]|]. split; [exact E|].
        intros v [<-|[<-|Hv]]; [apply Hm; now left| |apply Hm; now right].
        specialize (Hm t (or_introl eq_refl)). lra. }
  apply M.
Qed.

Lemma abs_le_norm p : Rabs (px p) <= norm p /\ Rabs (py p) <= norm p /\ Rabs (pz p) <= norm p.
Proof.
  unfold norm. repeat split.
  all: rewrite <- (sqrt_Rsqr_abs _); apply sqrt_le_1_alt; unfold Rsqr.
  all: pose proof (Rle_0_sqr (px p)); pose proof (Rle_0_sqr (py p)); pose proof (Rle_0_sqr (pz p)); unfold Rsqr in *; lra.
Qed.

(** a point of the triangle: convex combination of the corners *)
Definition inTriangle (t : tri) (v : point) : Prop :=
  let '(p, q, r) := t in
  exists a b c, 0 <= a /\ 0 <= b /\ 0 <= c /\ a + b + c = 1 /\
    v = (a * px p + b * px q + c * px r, a * py p + b * py q + c * py r, a * pz p + b * pz q + c * pz r).

Lemma comb_bound a b c x y z d : 0 <= a -> 0 <= b -> 0 <= c -> a + b + c = 1 ->
  Rabs (x - y) <= d -> Rabs (y - z) <= d -> Rabs (x - z) <= d ->
  (x + y + z) / 3 - d <= a * x + b * y + c * z <= (x + y + z) / 3 + d.
Proof.
  intros Ha Hb Hc E H1 H2 H3.
  assert (A : forall u v, Rabs (u - v) <= d -> - d <= u - v <= d).
  { intros u v H. unfold Rabs in H. destruct (Rcase_abs (u - v)); lra. }
  apply A in H1, H2, H3.
  assert (Hd : 0 <= d) by lra.
  assert (Ex : - d <= x - (x + y + z) / 3 <= d) by lra.
  assert (Ey : - d <= y - (x + y + z) / 3 <= d) by lra.
  assert (Ez : - d <= z - (x + y + z) / 3 <= d) by lra.
  set (m := (x + y + z) / 3) in *.
  assert (P : forall k u, 0 <= k -> - d <= u <= d -> - (k * d) <= k * u <= k * d).
  { intros k u Hk Hu. split.
    - replace (- (k * d)) with (k * - d) by ring. now apply Rmult_le_compat_l.
    - now apply Rmult_le_compat_l. }
  pose proof (P a _ Ha Ex). pose proof (P b _ Hb Ey). pose proof (P c _ Hc Ez).
  replace (a * x + b * y + c * z) with (m * (a + b + c) + (a * (x - m) + b * (y - m) + c * (z - m))) by ring.
  assert (a * d + b * d + c * d = d) by (replace (a * d + b * d + c * d) with ((a + b + c) * d) by ring; rewrite E; ring).
  rewrite E. lra.
Qed.

Lemma extended_contains o L ts t v n :
  (L <= 10)%N -> isCube o -> ext o = extensionSize ts -> In t ts -> nondegenerate t ->
  ple (olo o) (centroid t) -> ple (centroid t) (ohi o) ->
  getLeafContainingPoint o L (centroid t) = Some n -> inTriangle t v ->
  ple (extLower o n L) v /\ ple v (extUpper o n L).
Proof.
  intros HL Ho He Hin Hnd Hlo Hhi Hn Hv.
  destruct (leaf_lookup o L (centroid t) HL Ho) as (n' & En & _ & Hc). rewrite Hn in En. inversion En; subst n'; clear En.
  destruct (Hc Hlo Hhi) as [[H1 H2] _]. clear Hc Hlo Hhi Hn.
  pose proof (max_diameter_ge ts t Hin) as Hd.
  destruct t as [[p q] r]. destruct (sides_le_diameter p q r Hnd) as (S1 & S2 & S3).
  set (d := elementDiameter (p, q, r)) in *.
  assert (Hd0 : 0 <= d) by (eapply Rle_trans; [apply norm_nonneg|exact S1]).
  destruct Hv as (a & b & c & Ha & Hb & Hc & E & ->).
  assert (Hex : d <= ext o). { rewrite He. unfold extensionSize. lra. }
  destruct (abs_le_norm (vsub q p)) as (X1 & Y1 & Z1). destruct (abs_le_norm (vsub r p)) as (X2 & Y2 & Z2).
  destruct (abs_le_norm (vsub q r)) as (X3 & Y3 & Z3).
  pose proof (Rle_trans _ _ _ X1 S1) as X1'. pose proof (Rle_trans _ _ _ Y1 S1) as Y1'. pose proof (Rle_trans _ _ _ Z1 S1) as Z1'.
  pose proof (Rle_trans _ _ _ X2 S2) as X2'. pose proof (Rle_trans _ _ _ Y2 S2) as Y2'. pose proof (Rle_trans _ _ _ Z2 S2) as Z2'.
  pose proof (Rle_trans _ _ _ X3 S3) as X3'. pose proof (Rle_trans _ _ _ Y3 S3) as Y3'. pose proof (Rle_trans _ _ _ Z3 S3) as Z3'.
  clear X1 X2 X3 Y1 Y2 Y3 Z1 Z2 Z3 S1 S2 S3. clearbody d.
  unfold ple, extLower, extUpper, centroid in *.
  set (lo := cubeLower o n L) in *. set (up := cubeUpper o n L) in *. clearbody lo up.
  unfold vsub in X1', Y1', Z1', X2', Y2', Z2', X3', Y3', Z3'.
  unfold px, py, pz in *. cbn [fst snd] in *.
  pose proof (comb_bound a b c (fst (fst p)) (fst (fst q)) (fst (fst r)) d Ha Hb Hc E) as Bx.
  pose proof (comb_bound a b c (snd (fst p)) (snd (fst q)) (snd (fst r)) d Ha Hb Hc E) as By.
  pose proof (comb_bound a b c (snd p) (snd q) (snd r) d Ha Hb Hc E) as Bz.
  assert (Bx' := Bx ltac:(rewrite Rabs_minus_sym; lra) ltac:(lra) ltac:(rewrite Rabs_minus_sym; lra)).
  assert (By' := By ltac:(rewrite Rabs_minus_sym; lra) ltac:(lra) ltac:(rewrite Rabs_minus_sym; lra)).
  assert (Bz' := Bz ltac:(rewrite Rabs_minus_sym; lra) ltac:(lra) ltac:(rewrite Rabs_minus_sym; lra)).
  lra.
Qed.
