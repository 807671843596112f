From Coq Require Import List QArith Qminmax Qabs Bool Lqa Qfield.
Import ListNotations.
From Verif Require Import InsideModel InsideSpec.
Local Open Scope Q_scope.
Set Implicit Arguments.

Lemma ltb_spec a b : ltb a b = true <-> a < b.
Proof.
  unfold ltb. rewrite negb_true_iff. split.
  - intros H. apply Qnot_le_lt. intros L. apply Qle_bool_iff in L. congruence.
  - intros H. destruct (Qle_bool b a) eqn:E; [|reflexivity]. apply Qle_bool_iff in E. lra.
Qed.
Lemma ltb_false a b : ltb a b = false <-> b <= a.
Proof. unfold ltb. rewrite negb_false_iff. apply Qle_bool_iff. Qed.
Lemma eqb_spec a b : eqb a b = true <-> a == b.
Proof. apply Qeq_bool_iff. Qed.

Section Ray.
  Variables p v0 v1 v2 : v3.
  Let a := dot (vsub v1 v0) (cross (V3 0 0 1) (vsub v2 v0)).
  Let U := dot (vsub p v0) (cross (V3 0 0 1) (vsub v2 v0)).
  Let V := dot (V3 0 0 1) (cross (vsub p v0) (vsub v1 v0)).
  Let T := dot (vsub v2 v0) (cross (vsub p v0) (vsub v1 v0)).
  Lemma a_area : a == area2 v0 v1 v2.
  Proof. unfold a, area2, dot, cross, vsub; cbn [vx vy vz]. ring. Qed.
  (** Cramer *)
  Lemma cramer_only t u v : veq (above p t) (onTriangle v0 v1 v2 u v) -> u * a == U /\ v * a == V /\ t * a == T.
  Proof.
    intros (Hx & Hy & Hz). unfold above, onTriangle in *; cbn [vx vy vz] in *.
    unfold a, U, V, T, dot, cross, vsub; cbn [vx vy vz].
    assert (Ez : vz p == vz v0 + u * (vz v1 - vz v0) + v * (vz v2 - vz v0) - t) by lra.
    rewrite Hx, Hy, Ez. repeat split; ring.
  Qed.
  Lemma cramer_if t u v : ~ a == 0 -> u * a == U -> v * a == V -> t * a == T -> veq (above p t) (onTriangle v0 v1 v2 u v).
  Proof.
    intros Ha Hu Hv Ht.
    assert (C : forall x y, x * a == y * a -> x == y) by (intros x y H; apply Qmult_inj_r in H; auto).
    unfold veq, above, onTriangle; cbn [vx vy vz]. repeat split; apply C.
    - transitivity (vx v0 * a + (u * a) * (vx v1 - vx v0) + (v * a) * (vx v2 - vx v0)); [rewrite Hu, Hv; unfold a, U, V, dot, cross, vsub; cbn [vx vy vz]; ring|ring].
    - transitivity (vy v0 * a + (u * a) * (vy v1 - vy v0) + (v * a) * (vy v2 - vy v0)); [rewrite Hu, Hv; unfold a, U, V, dot, cross, vsub; cbn [vx vy vz]; ring|ring].
    - transitivity (vz v0 * a + (u * a) * (vz v1 - vz v0) + (v * a) * (vz v2 - vz v0)); [|ring].
      transitivity (vz p * a + t * a); [ring|]. rewrite Hu, Hv, Ht. unfold a, U, V, T, dot, cross, vsub; cbn [vx vy vz]. ring.
  Qed.
End Ray.

Definition rank (u v : Q) : Q :=
  if (eqb u 0 && eqb v 0) || (eqb u 0 && eqb v 1) || (eqb u 1 && eqb v 0) then 1 # 6
   else if eqb u 0 || eqb v 0 || eqb (u + v) 1 then 1 # 2 else 1.
Definition stored (v0 v1 v2 : v3) (u v : Q) : v3 :=
  V3 (vx v1 + u * vx (vsub v1 v0) + v * vx (vsub v2 v0)) (vy v1 + u * vy (vsub v1 v0) + v * vy (vsub v2 v0)) (vz v1 + u * vz (vsub v1 v0) + v * vz (vsub v2 v0)).
Lemma rank_pos u v : 0 < rank u v.
Proof. unfold rank. destruct (_ || _); [reflexivity|]. destruct (_ || _); reflexivity. Qed.
(** the two possible outcomes *)
Lemma zRay_cases p v0 v1 v2 :
  (zRay p v0 v1 v2 = (0, None) /\ ~ hits p (v0, v1, v2)) \/
  (exists t u v, steepEnough v0 v1 v2 /\ meetsAt p v0 v1 v2 t u v /\ zRay p v0 v1 v2 = (rank u v, Some (stored v0 v1 v2 u v))).
Proof.
  unfold zRay. set (a := dot (vsub v1 v0) (cross (V3 0 0 1) (vsub v2 v0))). cbv zeta.
  assert (Ea : a == area2 v0 v1 v2) by apply a_area.
  assert (E0 : 0 < eps) by reflexivity.
  set (U := dot (vsub p v0) (cross (V3 0 0 1) (vsub v2 v0))).
  set (V := dot (V3 0 0 1) (cross (vsub p v0) (vsub v1 v0))).
  set (T := dot (vsub v2 v0) (cross (vsub p v0) (vsub v1 v0))).
  destruct (ltb (- eps) a && ltb a eps) eqn:E1.
  { left. split; [reflexivity|]. intros [H _]. apply andb_true_iff in E1. rewrite !ltb_spec in E1. destruct H; rewrite <- Ea in H; lra. }
  assert (S : steepEnough v0 v1 v2).
  { unfold steepEnough. rewrite <- Ea. apply andb_false_iff in E1. rewrite !ltb_false in E1. destruct E1; [right|left]; assumption. }
  assert (Ha : ~ a == 0) by (destruct S as [S|S]; rewrite <- Ea in S; lra).
  set (u := 1 / a * U). set (v := 1 / a * V). set (t := 1 / a * T).
  assert (Hu : u * a == U) by (unfold u; field; exact Ha).
  assert (Hv : v * a == V) by (unfold v; field; exact Ha).
  assert (Ht : t * a == T) by (unfold t; field; exact Ha).
  assert (Uniq : forall t' u' v', veq (above p t') (onTriangle v0 v1 v2 u' v') -> t' == t /\ u' == u /\ v' == v).
  { intros t' u' v' H. destruct (@cramer_only p v0 v1 v2 t' u' v' H) as (A & B & C). fold a U V T in A, B, C.
    repeat split; apply (proj1 (Qmult_inj_r _ _ a Ha)); [rewrite C, Ht|rewrite A, Hu|rewrite B, Hv]; reflexivity. }
  assert (Miss : ~ (eps <= t /\ 0 <= u /\ 0 <= v /\ u + v <= 1) -> ~ hits p (v0, v1, v2)).
  { intros N (_ & t' & u' & v' & M1 & M2 & M3 & M4 & M5). apply N. destruct (Uniq _ _ _ M5) as (A & B & C). lra. }
  destruct (ltb u 0 || ltb 1 u) eqn:E2.
  { left. split; [reflexivity|]. apply Miss. intros (_ & A & B & C). apply orb_true_iff in E2. rewrite !ltb_spec in E2. destruct E2; lra. }
  destruct (ltb v 0 || ltb 1 (u + v)) eqn:E3.
  { left. split; [reflexivity|]. apply Miss. intros (_ & A & B & C). apply orb_true_iff in E3. rewrite !ltb_spec in E3. destruct E3; lra. }
  destruct (ltb t eps) eqn:E4.
  { left. split; [reflexivity|]. apply Miss. rewrite ltb_spec in E4. lra. }
  right. exists t, u, v. split; [exact S|]. split; [|reflexivity].
  apply orb_false_iff in E2, E3. rewrite !ltb_false in E2, E3. rewrite ltb_false in E4.
  repeat split; try tauto; try lra. all: apply (@cramer_if p v0 v1 v2 t u v Ha Hu Hv Ht).
Qed.
Lemma zRay_hits p a b c : 0 < fst (zRay p a b c) <-> hits p (a, b, c).
Proof.
  destruct (zRay_cases p a b c) as [[E N]|(t & u & v & S & M & E)]; rewrite E; cbn [fst].
  - split; [intros H; inversion H|contradiction].
  - split; [|intros _; apply rank_pos]. intros _. split; [exact S|]. eauto.
Qed.

(** a hit lies within the xy bounding box of the triangle *)
Lemma min3_le a b c u v x : 0 <= u -> 0 <= v -> u + v <= 1 -> x == a + u * (b - a) + v * (c - a) -> Qmin a (Qmin b c) <= x.
Proof.
  intros Hu Hv Hs ->. set (m := Qmin a (Qmin b c)).
  assert (m <= a) by apply Q.le_min_l. assert (m <= b) by (eapply Qle_trans; [apply Q.le_min_r|apply Q.le_min_l]).
  assert (m <= c) by (eapply Qle_trans; [apply Q.le_min_r|apply Q.le_min_r]).
  assert (0 <= u * (b - m)) by (apply Qmult_le_0_compat; lra). assert (0 <= v * (c - m)) by (apply Qmult_le_0_compat; lra).
  assert (0 <= (1 - u - v) * (a - m)) by (apply Qmult_le_0_compat; lra). lra.
Qed.
Lemma max3_le a b c u v x : 0 <= u -> 0 <= v -> u + v <= 1 -> x == a + u * (b - a) + v * (c - a) -> x <= Qmax a (Qmax b c).
Proof.
  intros Hu Hv Hs ->. set (m := Qmax a (Qmax b c)).
  assert (a <= m) by apply Q.le_max_l. assert (b <= m) by (eapply Qle_trans; [apply Q.le_max_l|apply Q.le_max_r]).
  assert (c <= m) by (eapply Qle_trans; [apply Q.le_max_r|apply Q.le_max_r]).
  assert (0 <= u * (m - b)) by (apply Qmult_le_0_compat; lra). assert (0 <= v * (m - c)) by (apply Qmult_le_0_compat; lra).
  assert (0 <= (1 - u - v) * (m - a)) by (apply Qmult_le_0_compat; lra). lra.
Qed.
Lemma hits_box p t : hits p t -> negb (ltb (vx p) (lo vx t)) && negb (ltb (hi vx t) (vx p)) && negb (ltb (vy p) (lo vy t)) && negb (ltb (hi vy t) (vy p)) = true.
Proof.
  destruct t as [[a b] c]. intros (_ & t & u & v & _ & H1 & H2 & H3 & Hx & Hy & _). cbn [above onTriangle vx vy vz] in Hx, Hy.
  rewrite !andb_true_iff, !negb_true_iff, !ltb_false. cbn [lo hi]. repeat split.
  - exact (@min3_le _ _ _ _ _ _ H1 H2 H3 Hx).
  - exact (@max3_le _ _ _ _ _ _ H1 H2 H3 Hx).
  - exact (@min3_le _ _ _ _ _ _ H1 H2 H3 Hy).
  - exact (@max3_le _ _ _ _ _ _ H1 H2 H3 Hy).
Qed.
Lemma collect_gen p ts : forall acc,
  (length (fold_left (fun acc t =>
    if negb (ltb (vx p) (lo vx t)) && negb (ltb (hi vx t) (vx p)) && negb (ltb (vy p) (lo vy t)) && negb (ltb (hi vy t) (vy p)) then
      let '(a, b, c) := t in
      let '(val, inter) := zRay p a b c in
      if ltb 0 val then
        match inter with Some i => if isNew i acc then acc ++ [i] else acc | None => acc end
      else acc
    else acc) ts acc) = 0%nat <-> acc = [] /\ forall t, In t ts -> ~ hits p t).
Proof.
  induction ts as [|t ts IH]; intros acc; cbn [fold_left].
  - split; [intros H; split; [now apply length_zero_iff_nil|intros ? []]|intros [-> _]; reflexivity].
  - rewrite IH. clear IH. destruct (_ && _) eqn:Eb.
    + destruct t as [[a b] c]. pose proof (zRay_hits p a b c) as H. destruct (zRay_cases p a b c) as [[E N]|(t & u & v & S & M & E)]; rewrite E in *; cbn [fst] in H.
      * destruct (ltb 0 0) eqn:E0; [apply ltb_spec in E0; inversion E0|]. cbn [In]. split.
        -- intros [-> Hn]. split; [reflexivity|]. intros t [<-|Ht]; auto.
        -- intros [-> Hn]. split; auto.
      * rewrite (proj2 (ltb_spec 0 (rank u v)) (rank_pos u v)). split.
        -- intros [Ha _]. exfalso. unfold isNew in Ha. destruct acc as [|x acc]; cbn in Ha; [discriminate|].
           destruct (_ && _) in Ha; discriminate.
        -- intros [_ Hn]. exfalso. apply (Hn (a, b, c)); [now left|]. apply H. apply rank_pos.
    + cbn [In]. split; intros [-> Hn]; (split; [reflexivity|]); auto. intros t' [<-|Ht]; [|auto]. intros Hh. apply hits_box in Hh. congruence.
Qed.
Lemma collect_spec p ts : length (collectHits p ts) = 0%nat <-> forall t, In t ts -> ~ hits p t.
Proof. unfold collectHits. rewrite collect_gen. split; [intros [_ H]; exact H|auto]. Qed.

(** bounding boxes *)
Lemma foldmin l : forall a x, x < fold_left Qmin l a <-> x < a /\ forall y, In y l -> x < y.
Proof.
  induction l as [|b l IH]; intros a x; cbn [fold_left In]; [intuition|]. rewrite IH. rewrite Q.min_glb_lt_iff. split.
  - intros [[A B] C]. split; [exact A|]. intros y [<-|Hy]; auto.
  - intros [A C]. auto.
Qed.
Lemma foldmax l : forall a x, fold_left Qmax l a < x <-> a < x /\ forall y, In y l -> y < x.
Proof.
  induction l as [|b l IH]; intros a x; cbn [fold_left In]; [intuition|]. rewrite IH. rewrite Q.max_lub_lt_iff. split.
  - intros [[A B] C]. split; [exact A|]. intros y [<-|Hy]; auto.
  - intros [A C]. auto.
Qed.

Lemma split_verts els : forall ts, splitElements els = Some ts -> forall f : v3 -> Q,
  (forall x, (exists t, In t ts /\ lo f t <= x) <-> exists e w, In e els /\ In w e /\ f w <= x) /\
  (forall x, (exists t, In t ts /\ x <= hi f t) <-> exists e w, In e els /\ In w e /\ x <= f w).
Proof.
  assert (Mn : forall a b c x, Qmin a (Qmin b c) <= x <-> a <= x \/ b <= x \/ c <= x) by (intros; rewrite !Q.min_le_iff; tauto).
  assert (Mx : forall a b c x, x <= Qmax a (Qmax b c) <-> x <= a \/ x <= b \/ x <= c) by (intros; rewrite !Q.max_le_iff; tauto).
  assert (P : forall (A : Type) (P : A -> Prop) a l, (exists t, In t (a :: l) /\ P t) <-> P a \/ exists t, In t l /\ P t).
  { intros A P a l. split; [intros (t & [<-|H] & Ht); eauto|intros [H|(t & H & Ht)]; [exists a|exists t]; cbn; auto]. }
  assert (P2 : forall (Q : v3 -> Prop) a l, (exists e w, In e (a :: l) /\ In w e /\ Q w) <-> (exists w, In w a /\ Q w) \/ exists e w, In e l /\ In w e /\ Q w).
  { intros Q a l. split; [intros (e & w & [<-|H] & H1 & H2); eauto 6|intros [(w & H)|(e & w & H & Ht)]; [exists a, w|exists e, w]; cbn; tauto]. }
  assert (Z : forall (Q : v3 -> Prop), (exists t, In t [] /\ Q t) <-> False) by (intros Q; split; [intros (? & [] & _)|tauto]).
  induction els as [|e els IH]; intros ts E f; cbn [splitElements] in E.
  - inversion E; subst. split; intros x; (split; [intros (? & [] & _)|intros (? & ? & [] & _)]).
  - destruct e as [|a [|b [|c [|d [|? ?]]]]]; try discriminate; destruct (splitElements els) as [l|]; try discriminate; inversion E; subst; clear E;
    destruct (IH l eq_refl f) as [I1 I2]; split; intros x; repeat rewrite (P triangle); rewrite (P2 (fun w => _ w <= _) _ els) || rewrite (P2 (fun w => _ <= _ w) _ els);
    rewrite ?I1, ?I2; cbn [lo hi]; rewrite ?Mn, ?Mx; repeat rewrite (P v3); rewrite Z; tauto.
Qed.
Lemma insideBox_spec els p ts : splitElements els = Some ts -> ts <> [] ->
  exists b, insideBox p ts = Some b /\ (b = true <-> inGridBox p els).
Proof.
  intros E Hne. unfold insideBox, inGridBox.
  assert (Mn : forall f, exists m, minCoeff (map (lo f) ts) = Some m /\ forall x, negb (ltb x m) = true <-> exists t, In t ts /\ lo f t <= x).
  { intros f. destruct ts as [|t ts]; [now destruct Hne|]. cbn [map minCoeff]. eexists. split; [reflexivity|]. intros x.
    rewrite negb_true_iff, <- not_true_iff_false, ltb_spec, foldmin. split.
    - intros N. assert (D : forall l : list triangle, (exists t, In t l /\ lo f t <= x) \/ forall y, In y (map (lo f) l) -> x < y).
      { clear. induction l as [|a l IH]; [right; intros ? []|]. destruct (Qlt_le_dec x (lo f a)); [|left; exists a; cbn; auto].
        destruct IH as [(t & H & Ht)|H]; [left; exists t; cbn; auto|right]. intros y [<-|Hy]; auto. }
      destruct (Qlt_le_dec x (lo f t)); [|exists t; cbn; auto]. destruct (D ts) as [(t' & H & Ht)|H]; [exists t'; cbn; auto|]. exfalso; auto.
    - intros (t' & [<-|H] & Ht) [N1 N2]; [lra|]. specialize (N2 (lo f t') (in_map _ _ _ H)). lra. }
  assert (Mx : forall f, exists m, maxCoeff (map (hi f) ts) = Some m /\ forall x, negb (ltb m x) = true <-> exists t, In t ts /\ x <= hi f t).
  { intros f. destruct ts as [|t ts]; [now destruct Hne|]. cbn [map maxCoeff]. eexists. split; [reflexivity|]. intros x.
    rewrite negb_true_iff, <- not_true_iff_false, ltb_spec, foldmax. split.
    - intros N. assert (D : forall l : list triangle, (exists t, In t l /\ x <= hi f t) \/ forall y, In y (map (hi f) l) -> y < x).
      { clear. induction l as [|a l IH]; [right; intros ? []|]. destruct (Qlt_le_dec (hi f a) x); [|left; exists a; cbn; auto].
        destruct IH as [(t & H & Ht)|H]; [left; exists t; cbn; auto|right]. intros y [<-|Hy]; auto. }
      destruct (Qlt_le_dec (hi f t) x); [|exists t; cbn; auto]. destruct (D ts) as [(t' & H & Ht)|H]; [exists t'; cbn; auto|]. exfalso; auto.
    - intros (t' & [<-|H] & Ht) [N1 N2]; [lra|]. specialize (N2 (hi f t') (in_map _ _ _ H)). lra. }
  destruct (Mn vx) as (x0 & -> & X0), (Mx vx) as (x1 & -> & X1), (Mn vy) as (y0 & -> & Y0), (Mx vy) as (y1 & -> & Y1), (Mn vz) as (z0 & -> & Z0), (Mx vz) as (z1 & -> & Z1).
  eexists. split; [reflexivity|]. rewrite !negb_orb, !andb_true_iff, X0, X1, Y0, Y1, Z0, Z1.
  rewrite !(proj1 (split_verts _ E _)), !(proj2 (split_verts _ E _)). split.
  - intros H f [<-|[<-|[<-|[]]]]; tauto.
  - intros H. pose proof (H vx (or_introl eq_refl)). pose proof (H vy (or_intror (or_introl eq_refl))). pose proof (H vz (or_intror (or_intror (or_introl eq_refl)))). tauto.
Qed.
Theorem isInside_spec els p ts : splitElements els = Some ts -> els <> [] ->
  exists b, isInside p els = Some b /\ (b = true <-> inGridBox p els /\ exists t, In t ts /\ hits p t).
Proof.
  intros E Hne. assert (Ht : ts <> []).
  { intros ->. destruct els as [|e els]; [now destruct Hne|]. cbn in E. destruct e as [|a [|b [|c [|d [|? ?]]]]]; try discriminate; destruct (splitElements els); discriminate. }
  unfold isInside. rewrite E. destruct (@insideBox_spec els p ts E Ht) as (b & -> & Hb). destruct b.
  - eexists. split; [reflexivity|]. rewrite negb_true_iff, <- not_true_iff_false, Nat.eqb_eq, collect_spec. split.
    + intros N. split; [now apply Hb|]. assert (D : forall l : list triangle, (exists t, In t l /\ hits p t) \/ forall t, In t l -> ~ hits p t).
      { clear. induction l as [|[[a b] c] l IH]; [right; intros ? []|]. destruct (Qlt_le_dec 0 (fst (zRay p a b c))) as [H|H].
        - left. exists (a, b, c). split; [now left|]. now apply zRay_hits.
        - destruct IH as [(t & H1 & H2)|IH]; [left; exists t; cbn; auto|right]. intros t [<-|Hin]; auto. intros X. apply zRay_hits in X. lra. }
      destruct (D ts); [assumption|]. exfalso; auto.
    + intros (_ & t & Hin & Hh) N. exact (N t Hin Hh).
  - eexists. split; [reflexivity|]. split; [discriminate|]. intros [H _]. apply Hb in H. discriminate.
Qed.
