(** Proofs for C14, C51. *)
From Coq Require Import Reals Lra Lia List Bool Psatz.
Import ListNotations.
From Verif Require Import BoxModel BoxSpec.
Local Open Scope R_scope.

Lemma gtb_true x y : gtb x y = true <-> y < x.
Proof. unfold gtb. destruct (Rlt_dec y x); split; intros; auto; try discriminate; contradiction. Qed.
Lemma gtb_false x y : gtb x y = false <-> x <= y.
Proof. unfold gtb. destruct (Rlt_dec y x); split; intros; try discriminate; lra. Qed.
Lemma leb_true x y : leb x y = true <-> x <= y.
Proof. unfold leb. destruct (Rle_dec x y); split; intros; auto; try discriminate; contradiction. Qed.
Lemma leb_false x y : leb x y = false <-> y < x.
Proof. unfold leb. destruct (Rle_dec x y); split; intros; try discriminate; lra. Qed.

Lemma Rmin_le a b : Rmin a b <= a /\ Rmin a b <= b.
Proof. split; [apply Rmin_l|apply Rmin_r]. Qed.
Lemma Rmax_ge a b : a <= Rmax a b /\ b <= Rmax a b.
Proof. split; [apply Rmax_l|apply Rmax_r]. Qed.

Ltac mm :=
  repeat match goal with
  | |- context [Rmin ?a ?b] => destruct (Rmin_le a b); destruct (Rle_dec a b); [rewrite (Rmin_left a b) in * by lra|rewrite (Rmin_right a b) in * by lra]
  | |- context [Rmax ?a ?b] => destruct (Rmax_ge a b); destruct (Rle_dec a b); [rewrite (Rmax_right a b) in * by lra|rewrite (Rmax_left a b) in * by lra]
  | H : context [Rmin ?a ?b] |- _ => destruct (Rle_dec a b); [rewrite (Rmin_left a b) in * by lra|rewrite (Rmin_right a b) in * by lra]
  | H : context [Rmax ?a ?b] |- _ => destruct (Rle_dec a b); [rewrite (Rmax_right a b) in * by lra|rewrite (Rmax_left a b) in * by lra]
  end.

Lemma merge_ok a b : validBox a -> validBox b ->
  (forall p, inBox a p \/ inBox b p -> inBox (merge a b) p) /\
  (forall c, (forall p, inBox a p -> inBox c p) -> (forall p, inBox b p -> inBox c p) ->
     forall p, inBox (merge a b) p -> inBox c p).
Proof.
  intros Va Vb. split.
  - intros p H. unfold inBox, merge, computeGeometricData in *. cbn in *.
    pose proof (Rmin_le (d0 a) (d0 b)). pose proof (Rmax_ge (d1 a) (d1 b)).
    pose proof (Rmin_le (d2 a) (d2 b)). pose proof (Rmax_ge (d3 a) (d3 b)).
    pose proof (Rmin_le (d4 a) (d4 b)). pose proof (Rmax_ge (d5 a) (d5 b)). lra.
  - intros c Ha Hb p H. unfold validBox in *.
    pose proof (Ha (d0 a, d2 a, d4 a)) as A1. pose proof (Ha (d1 a, d3 a, d5 a)) as A2.
    pose proof (Hb (d0 b, d2 b, d4 b)) as B1. pose proof (Hb (d1 b, d3 b, d5 b)) as B2.
    unfold inBox, merge, computeGeometricData, px, py, pz in *. cbn in *.
    pose proof (Rmin_glb (d0 a) (d0 b) (d0 c)). pose proof (Rmax_lub (d1 a) (d1 b) (d1 c)).
    pose proof (Rmin_glb (d2 a) (d2 b) (d2 c)). pose proof (Rmax_lub (d3 a) (d3 b) (d3 c)).
    pose proof (Rmin_glb (d4 a) (d4 b) (d4 c)). pose proof (Rmax_lub (d5 a) (d5 b) (d5 c)).
    lra.
Qed.

Lemma id_sym a b c d : a <= b -> c <= d -> intervalDistance a b c d = intervalDistance c d a b.
Proof.
  intros. unfold intervalDistance.
  destruct (gtb c b) eqn:E1, (gtb a d) eqn:E2; auto.
  apply gtb_true in E1, E2. lra.
Qed.
Lemma distance_sym a b : validBox a -> validBox b -> distance a b = distance b a.
Proof.
  intros (A0 & A1 & A2) (B0 & B1 & B2). unfold distance.
  rewrite (id_sym (d0 a)), (id_sym (d2 a)), (id_sym (d4 a)) by assumption. reflexivity.
Qed.

Lemma id_nonneg a b c d : 0 <= intervalDistance a b c d.
Proof.
  unfold intervalDistance. destruct (gtb c b) eqn:E1; [apply gtb_true in E1; lra|].
  destruct (gtb a d) eqn:E2; [apply gtb_true in E2; lra|lra].
Qed.
Lemma id_lower a b c d x y : a <= x <= b -> c <= y <= d ->
  intervalDistance a b c d * intervalDistance a b c d <= (x - y) * (x - y).
Proof.
  intros H1 H2. unfold intervalDistance.
  assert (S : forall u v, 0 <= u <= v -> u * u <= v * v) by (intros; apply Rmult_le_compat; lra).
  destruct (gtb c b) eqn:E1; [apply gtb_true in E1|].
  { replace ((x - y) * (x - y)) with ((y - x) * (y - x)) by ring. apply S. lra. }
  destruct (gtb a d) eqn:E2; [apply gtb_true in E2; apply S; lra|].
  rewrite Rmult_0_l. apply Rle_0_sqr.
Qed.
Lemma id_attained a b c d : a <= b -> c <= d -> exists x y, a <= x <= b /\ c <= y <= d /\
  intervalDistance a b c d * intervalDistance a b c d = (x - y) * (x - y).
Proof.
  intros H1 H2. unfold intervalDistance.
  destruct (gtb c b) eqn:E1; [apply gtb_true in E1|apply gtb_false in E1].
  - exists b, c. repeat split; try lra.
  - destruct (gtb a d) eqn:E2; [apply gtb_true in E2|apply gtb_false in E2].
    + exists a, d. repeat split; try lra.
    + exists (Rmax a c), (Rmax a c). pose proof (Rmax_ge a c).
      pose proof (Rmax_lub a c b). pose proof (Rmax_lub a c d).
      repeat split; try lra.
Qed.

Lemma distance_ok a b : validBox a -> validBox b ->
  (forall p q, inBox a p -> inBox b q -> distance a b <= dist p q) /\
  (exists p q, inBox a p /\ inBox b q /\ distance a b = dist p q) /\
  (distance a b = 0 <-> exists p, inBox a p /\ inBox b p).
Proof.
  intros (A0 & A1 & A2) (B0 & B1 & B2).
  assert (L : forall p q, inBox a p -> inBox b q -> distance a b <= dist p q).
  { intros p q (P0 & P1 & P2) (Q0 & Q1 & Q2). unfold distance, dist. apply sqrt_le_1_alt.
    pose proof (id_lower _ _ _ _ _ _ P0 Q0). pose proof (id_lower _ _ _ _ _ _ P1 Q1).
    pose proof (id_lower _ _ _ _ _ _ P2 Q2). lra. }
  destruct (id_attained _ _ _ _ A0 B0) as (x & x' & X1 & X2 & X3).
  destruct (id_attained _ _ _ _ A1 B1) as (y & y' & Y1 & Y2 & Y3).
  destruct (id_attained _ _ _ _ A2 B2) as (z & z' & Z1 & Z2 & Z3).
  assert (E : exists p q, inBox a p /\ inBox b q /\ distance a b = dist p q).
  { exists (x, y, z), (x', y', z'). split; [repeat split; cbn; try lra|]. split; [repeat split; cbn; try lra|].
    unfold distance, dist, px, py, pz. cbn [fst snd]. f_equal. lra. }
  split; [exact L|]. split; [exact E|]. split.
  - intros H0. destruct E as (p & q & Hp & Hq & E). rewrite H0 in E.
    unfold dist in E. symmetry in E. pose proof (Rle_0_sqr (px p - px q)) as N1. pose proof (Rle_0_sqr (py p - py q)) as N2.
    pose proof (Rle_0_sqr (pz p - pz q)) as N3. unfold Rsqr in N1, N2, N3.
    apply sqrt_eq_0 in E; [|lra].
    assert (px p - px q = 0) by (apply Rsqr_0_uniq; unfold Rsqr; lra).
    assert (py p - py q = 0) by (apply Rsqr_0_uniq; unfold Rsqr; lra).
    assert (pz p - pz q = 0) by (apply Rsqr_0_uniq; unfold Rsqr; lra).
    exists p. split; [exact Hp|]. destruct Hq as (? & ? & ?). repeat split; lra.
  - intros (p & Hp & Hq). pose proof (L p p Hp Hq) as H. unfold dist in H.
    replace ((px p - px p) * (px p - px p) + (py p - py p) * (py p - py p) + (pz p - pz p) * (pz p - pz p))
      with 0 in H by ring. rewrite sqrt_0 in H. unfold distance in *.
    apply Rle_antisym; [exact H|apply sqrt_pos].
Qed.

Lemma divide_ok b dim f : validBox b -> 0 <= f <= 1 ->
  ((2 < dim)%nat -> divide b dim f = None) /\
  ((dim <= 2)%nat -> exists l r, divide b dim f = Some (l, r) /\ validBox l /\ validBox r /\
     (forall p, inBox b p <-> inBox l p \/ inBox r p) /\
     (forall p, contains b p = xorb (contains l p) (contains r p)) /\
     (forall p, contains b p = orb (contains l p) (contains r p))).
Proof.
  intros (V0 & V1 & V2) Hf. split.
  - intros Hd. do 3 (destruct dim as [|dim]; [lia|]). reflexivity.
  - assert (A : forall a c, a <= c -> a <= a + f * (c - a) <= c) by (intros; nra).
    pose proof (A _ _ V0). pose proof (A _ _ V1). pose proof (A _ _ V2).
    assert (C : forall a m c x (k : bool), a <= m <= c ->
      (leb a x && gtb c x = xorb (leb a x && gtb m x) (leb m x && gtb c x) /\
       leb a x && gtb c x = orb (leb a x && gtb m x) (leb m x && gtb c x))%bool).
    { intros a m c x _ Hm. unfold leb, gtb.
      destruct (Rle_dec a x), (Rlt_dec x c), (Rlt_dec x m), (Rle_dec m x); cbn; split; auto; lra. }
    intros Hd. destruct dim as [|[|[|dim]]]; [| | |lia].
    + set (m := d0 b + f * (d1 b - d0 b)) in *.
      eexists _, _. split; [reflexivity|]. unfold validBox, inBox, contains. cbn. fold m.
      split; [lra|]. split; [lra|]. split; [intros p; lra|].
      split; intros p; destruct (C _ m _ (px p) true H) as [E1 E2].
      * rewrite E1. unfold leb, gtb. destruct (Rle_dec (d0 b) (px p)), (Rlt_dec (px p) (d1 b)), (Rlt_dec (px p) m), (Rle_dec m (px p)),
          (Rle_dec (d2 b) (py p)), (Rlt_dec (py p) (d3 b)),(Rle_dec (d4 b) (pz p)), (Rlt_dec (pz p) (d5 b)); cbn; auto; lra.
      * rewrite E2. unfold leb, gtb. destruct (Rle_dec (d0 b) (px p)), (Rlt_dec (px p) (d1 b)), (Rlt_dec (px p) m), (Rle_dec m (px p)),
          (Rle_dec (d2 b) (py p)), (Rlt_dec (py p) (d3 b)),(Rle_dec (d4 b) (pz p)), (Rlt_dec (pz p) (d5 b)); cbn; auto; lra.
    + set (m := d2 b + f * (d3 b - d2 b)) in *.
      eexists _, _. split; [reflexivity|]. unfold validBox, inBox, contains. cbn. fold m.
      split; [lra|]. split; [lra|]. split; [intros p; lra|].
      split; intros p; destruct (C _ m _ (py p) true H0) as [E1 E2].
      * unfold leb, gtb in *. destruct (Rle_dec (d0 b) (px p)), (Rlt_dec (px p) (d1 b)), (Rlt_dec (py p) m), (Rle_dec m (py p)),
          (Rle_dec (d2 b) (py p)), (Rlt_dec (py p) (d3 b)),(Rle_dec (d4 b) (pz p)), (Rlt_dec (pz p) (d5 b)); cbn; auto; lra.
      * unfold leb, gtb in *. destruct (Rle_dec (d0 b) (px p)), (Rlt_dec (px p) (d1 b)), (Rlt_dec (py p) m), (Rle_dec m (py p)),
          (Rle_dec (d2 b) (py p)), (Rlt_dec (py p) (d3 b)),(Rle_dec (d4 b) (pz p)), (Rlt_dec (pz p) (d5 b)); cbn; auto; lra.
    + set (m := d4 b + f * (d5 b - d4 b)) in *.
      eexists _, _. split; [reflexivity|]. unfold validBox, inBox, contains. cbn. fold m.
      split; [lra|]. split; [lra|]. split; [intros p; lra|].
      split; intros p; destruct (C _ m _ (pz p) true H1) as [E1 E2].
      * unfold leb, gtb in *. destruct (Rle_dec (d0 b) (px p)), (Rlt_dec (px p) (d1 b)), (Rlt_dec (pz p) m), (Rle_dec m (pz p)),
          (Rle_dec (d2 b) (py p)), (Rlt_dec (py p) (d3 b)),(Rle_dec (d4 b) (pz p)), (Rlt_dec (pz p) (d5 b)); cbn; auto; lra.
      * unfold leb, gtb in *. destruct (Rle_dec (d0 b) (px p)), (Rlt_dec (px p) (d1 b)), (Rlt_dec (pz p) m), (Rle_dec m (pz p)),
          (Rle_dec (d2 b) (py p)), (Rlt_dec (py p) (d3 b)),(Rle_dec (d4 b) (pz p)), (Rlt_dec (pz p) (d5 b)); cbn; auto; lra.
Qed.

(** diameter and longest direction *)
Lemma box_geometry a b c d e f : a <= b -> c <= d -> e <= f ->
  let B := mkBox a b c d e f in
  (forall p q, inBox B p -> inBox B q -> dist p q <= diam B) /\
  (exists p q, inBox B p /\ inBox B q /\ dist p q = diam B) /\
  (maxDim B <= 2)%nat /\
  (let ext i := match i with O => b - a | 1%nat => d - c | _ => f - e end in
   forall i, (i <= 2)%nat -> ext i <= ext (maxDim B)).
Proof.
  intros H1 H2 H3 B. split; [|split; [|split]].
  - intros p q (P0 & P1 & P2) (Q0 & Q1 & Q2). unfold dist, B, mkBox, computeGeometricData in *. cbn in *.
    apply sqrt_le_1_alt. 
    assert (A : forall l u x y, l <= x <= u -> l <= y <= u -> (x - y) * (x - y) <= (u - l) * (u - l)) by (intros; nra).
    pose proof (A _ _ _ _ P0 Q0). pose proof (A _ _ _ _ P1 Q1). pose proof (A _ _ _ _ P2 Q2). lra.
  - exists (a, c, e), (b, d, f). unfold inBox, dist, B, mkBox, computeGeometricData, px, py, pz. cbn.
    split; [lra|]. split; [lra|]. f_equal. ring.
  - unfold B, mkBox, computeGeometricData. cbn. repeat match goal with |- context [if ?x then _ else _] => destruct x end; lia.
  - intros ext i Hi. unfold B, mkBox, computeGeometricData. cbn [maxDim].
    destruct (gtb (d - c) (b - a)) eqn:E1; [apply gtb_true in E1|apply gtb_false in E1];
    match goal with |- context [gtb ?x ?y] => destruct (gtb x y) eqn:E2; [apply gtb_true in E2|apply gtb_false in E2] end;
    unfold ext in *; destruct i as [|[|[|i]]]; try lia; lra.
Qed.

Lemma triangle_box p q r : let B := boundingBoxFromTriangleData p q r in
  (inBox B p /\ inBox B q /\ inBox B r) /\ validBox B /\
  (forall c, inBox c p -> inBox c q -> inBox c r -> forall x, inBox B x -> inBox c x).
Proof.
  intros B. 
  assert (P : inBox B p /\ inBox B q /\ inBox B r).
  { unfold B, boundingBoxFromTriangleData, inBox, mkBox, computeGeometricData. cbn.
    assert (A : forall a b c, (Rmin (Rmin a b) c <= a /\ Rmin (Rmin a b) c <= b /\ Rmin (Rmin a b) c <= c) /\
       (a <= Rmax (Rmax a b) c /\ b <= Rmax (Rmax a b) c /\ c <= Rmax (Rmax a b) c)).
    { intros a b c. pose proof (Rmin_le a b). pose proof (Rmin_le (Rmin a b) c).
      pose proof (Rmax_ge a b). pose proof (Rmax_ge (Rmax a b) c). lra. }
    pose proof (A (px p) (px q) (px r)). pose proof (A (py p) (py q) (py r)). pose proof (A (pz p) (pz q) (pz r)).
    lra. }
  split; [exact P|]. split.
  - destruct P as ((? & ? & ?) & _). unfold validBox. lra.
  - intros c (A1 & A2 & A3) (B1 & B2 & B3) (C1 & C2 & C3) x (X1 & X2 & X3).
    unfold B, boundingBoxFromTriangleData, inBox, mkBox, computeGeometricData in *. cbn in *.
    assert (A : forall a b c l, l <= a -> l <= b -> l <= c -> l <= Rmin (Rmin a b) c)
      by (intros; repeat apply Rmin_glb; assumption).
    assert (A' : forall a b c u, a <= u -> b <= u -> c <= u -> Rmax (Rmax a b) c <= u)
      by (intros; repeat apply Rmax_lub; assumption).
    pose proof (A (px p) (px q) (px r) (d0 c)). pose proof (A' (px p) (px q) (px r) (d1 c)).
    pose proof (A (py p) (py q) (py r) (d2 c)). pose proof (A' (py p) (py q) (py r) (d3 c)).
    pose proof (A (pz p) (pz q) (pz r) (d4 c)). pose proof (A' (pz p) (pz q) (pz r) (d5 c)). lra.
Qed.

Lemma strong_adm eta t1 t2 a b : 0 < eta -> 0 <= t1 -> 0 <= t2 -> validBox a -> validBox b ->
  strongAdmissibility eta t1 t2 a b = true ->
  Rmin t1 t2 < eta * distance a b /\ weakAdmissibility a b = true /\ ~ exists p, inBox a p /\ inBox b p.
Proof.
  intros He H1 H2 Va Vb H. unfold strongAdmissibility in H. apply gtb_true in H.
  split; [exact H|]. assert (0 <= Rmin t1 t2) by (apply Rmin_glb; assumption).
  assert (0 < distance a b) by nra.
  split; [unfold weakAdmissibility; apply gtb_true; assumption|].
  intros Hx. destruct (distance_ok a b Va Vb) as (_ & _ & Hz). apply Hz in Hx. lra.
Qed.

(** default box *)
Lemma default_merge_wrong mx mn : 0 < mn < mx ->
  let B := merge (defaultBox mx mn) (mkBox (-2) (-1) (-2) (-1) (-2) (-1)) in
  inBox B (0, -1, -1) /\ ~ inBox (mkBox (-2) (-1) (-2) (-1) (-2) (-1)) (0, -1, -1).
Proof.
  intros H B. unfold B, merge, defaultBox, mkBox, computeGeometricData, inBox, px, py, pz. cbn.
  pose proof (Rmin_le mx (-2)). pose proof (Rmax_ge mn (-1)). lra.
Qed.

(** ---- C51 ---- *)
Lemma extend_bounds pts : forall b,
  let c := extendBoundingBox b pts in
  ple (lbound c) (lbound b) /\ ple (ubound b) (ubound c) /\
  (forall p, In p pts -> inBB c p) /\
  (forall l, ple l (lbound b) -> (forall p, In p pts -> ple l p) -> ple l (lbound c)) /\
  (forall u, ple (ubound b) u -> (forall p, In p pts -> ple p u) -> ple (ubound c) u) /\
  reference c = reference b.
Proof.
  unfold extendBoundingBox. induction pts as [|p pts IH]; intros b; cbn [fold_left].
  - cbv zeta. unfold ple. repeat split; try lra; try easy; auto; intros l H _; apply H.
  - destruct (IH (extendPoint b p)) as (I1 & I2 & I3 & I4 & I5 & I6). cbv zeta in *.
    set (c := fold_left extendPoint pts (extendPoint b p)) in *.
    unfold extendPoint in I1, I2, I4, I5. cbn [lbound ubound] in I1, I2, I4, I5.
    assert (Q1 : ple (Rmin (px (lbound b)) (px p), Rmin (py (lbound b)) (py p), Rmin (pz (lbound b)) (pz p)) (lbound b)
                 /\ ple (Rmin (px (lbound b)) (px p), Rmin (py (lbound b)) (py p), Rmin (pz (lbound b)) (pz p)) p).
    { unfold ple, px, py, pz. cbn. 
      pose proof (Rmin_le (fst (fst (lbound b))) (fst (fst p))). pose proof (Rmin_le (snd (fst (lbound b))) (snd (fst p))).
      pose proof (Rmin_le (snd (lbound b)) (snd p)). lra. }
    assert (Q2 : ple (ubound b) (Rmax (px (ubound b)) (px p), Rmax (py (ubound b)) (py p), Rmax (pz (ubound b)) (pz p))
                 /\ ple p (Rmax (px (ubound b)) (px p), Rmax (py (ubound b)) (py p), Rmax (pz (ubound b)) (pz p))).
    { unfold ple, px, py, pz. cbn. 
      pose proof (Rmax_ge (fst (fst (ubound b))) (fst (fst p))). pose proof (Rmax_ge (snd (fst (ubound b))) (snd (fst p))).
      pose proof (Rmax_ge (snd (ubound b)) (snd p)). lra. }
    assert (T : forall x y z, ple x y -> ple y z -> ple x z) by (unfold ple; intros; lra).
    split; [eapply T; [apply I1|apply Q1]|]. split; [eapply T; [apply Q2|apply I2]|]. split; [|split; [|split]].
    + intros q [<-|Hq]; [|now apply I3]. split; [eapply T; [apply I1|apply Q1]|eapply T; [apply Q2|apply I2]].
    + intros l Hl Hp. apply I4; [|intros; apply Hp; now right].
      pose proof (Hp p (or_introl eq_refl)) as Hp0.
      unfold ple, px, py, pz in *. cbn. repeat split; apply Rmin_glb; lra.
    + intros u Hu Hp. apply I5; [|intros; apply Hp; now right].
      pose proof (Hp p (or_introl eq_refl)) as Hp0.
      unfold ple, px, py, pz in *. cbn. repeat split; apply Rmax_lub; lra.
    + exact I6.
Qed.

Lemma extend_fold A (g : A -> list point) l : forall b,
  fold_left (fun b ld => extendBoundingBox b (g ld)) l b = extendBoundingBox b (concat (map g l)).
Proof.
  unfold extendBoundingBox. induction l as [|x l IH]; intros b; [reflexivity|].
  cbn. rewrite IH, fold_left_app. reflexivity.
Qed.

Lemma dof_bbox maxCoord corners k rest p : nth_error corners k = Some p ->
  let pts := concat (map fst ((corners, k) :: rest)) in
  (forall q, In q pts -> ple (- maxCoord, - maxCoord, - maxCoord) q /\ ple q (maxCoord, maxCoord, maxCoord)) ->
  exists b, dofBoundingBox maxCoord ((corners, k) :: rest) = Some b /\
    (forall q, In q pts -> inBB b q) /\ reference b = p /\ inBB b p /\
    (forall l u, (forall q, In q pts -> ple l q /\ ple q u) -> ple l (lbound b) /\ ple (ubound b) u).
Proof.
  intros E pts Hb. unfold dofBoundingBox. rewrite E. eexists. split; [reflexivity|].
  rewrite extend_fold.
  change (concat (map fst ((corners, k) :: rest))) with pts.
  destruct (extend_bounds pts (BBox (0,0,0) (maxCoord, maxCoord, maxCoord) (- maxCoord, - maxCoord, - maxCoord)))
    as (_ & _ & I3 & I4 & I5 & _). cbv zeta in *. 
  assert (Hin : In p pts). { unfold pts. cbn. apply in_or_app. left. eapply nth_error_In, E. }
  split; [intros q Hq; apply (I3 q Hq)|]. split; [reflexivity|]. split; [apply (I3 p Hin)|].
  intros l u H. cbn [setReference lbound ubound]. split.
  - apply I4; [|intros q Hq; now apply H]. cbn. destruct (H p Hin) as [H1 H2]. destruct (Hb p Hin) as [B1 B2].
    unfold ple, px, py, pz in *. cbn in *. lra.
  - apply I5; [|intros q Hq; now apply H]. cbn. destruct (H p Hin) as [H1 H2]. destruct (Hb p Hin) as [B1 B2].
    unfold ple, px, py, pz in *. cbn in *. lra.
Qed.

Lemma create_bounds x0 y0 z0 x1 y1 z1 p :
  inBB (createBoundingBox x0 y0 z0 x1 y1 z1) p <->
  (x0 <= px p <= x1 /\ y0 <= py p <= y1 /\ z0 <= pz p <= z1).
Proof. unfold inBB, ple, createBoundingBox, px, py, pz. cbn. lra. Qed.
Lemma create_reference x0 y0 z0 x1 y1 z1 : x0 <= x1 -> y0 <= y1 -> z0 <= z1 ->
  (inBB (createBoundingBox x0 y0 z0 x1 y1 z1) (reference (createBoundingBox x0 y0 z0 x1 y1 z1)) <->
   (3 * x0 <= x1 /\ - x0 <= x1 /\ 3 * y0 <= y1 /\ - y0 <= y1 /\ 3 * z0 <= z1 /\ - z0 <= z1)).
Proof. intros. rewrite create_bounds. unfold createBoundingBox, px, py, pz. cbn. lra. Qed.
