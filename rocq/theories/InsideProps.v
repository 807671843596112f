From Coq Require Import List QArith Qminmax Qabs Bool Lqa.
Import ListNotations.
From Verif Require Import InsideModel InsideSpec InsideProofs.
Local Open Scope Q_scope.

(** C71: the ray/triangle test reports a hit exactly for rays that meet the triangle (up to the
    tolerance eps on t and on the projected area); the meeting point is unique; the number
    returned tells vertex, edge and interior apart. *)
Theorem C71_ray_triangle (p v0 v1 v2 : v3) :
  (fst (zRay p v0 v1 v2) == 0 \/ fst (zRay p v0 v1 v2) == 1 # 6 \/ fst (zRay p v0 v1 v2) == 1 # 2 \/ fst (zRay p v0 v1 v2) == 1) /\
  (0 < fst (zRay p v0 v1 v2) <-> steepEnough v0 v1 v2 /\ exists t u v, meetsAt p v0 v1 v2 t u v) /\
  (steepEnough v0 v1 v2 -> forall t u v, meetsAt p v0 v1 v2 t u v ->
     (forall t' u' v', meetsAt p v0 v1 v2 t' u' v' -> t' == t /\ u' == u /\ v' == v) /\
     (fst (zRay p v0 v1 v2) == 1 # 6 <-> (u == 0 /\ v == 0) \/ (u == 1 /\ v == 0) \/ (u == 0 /\ v == 1)) /\
     (fst (zRay p v0 v1 v2) == 1 <-> 0 < u /\ 0 < v /\ u + v < 1)).
Proof.
  assert (Uq : steepEnough v0 v1 v2 -> forall t u v, meetsAt p v0 v1 v2 t u v -> forall t' u' v', meetsAt p v0 v1 v2 t' u' v' -> t' == t /\ u' == u /\ v' == v).
  { intros S t u v (_ & _ & _ & _ & M) t' u' v' (_ & _ & _ & _ & M').
    destruct (@cramer_only p v0 v1 v2 _ _ _ M) as (A & B & C), (@cramer_only p v0 v1 v2 _ _ _ M') as (A' & B' & C').
    pose proof (a_area v0 v1 v2) as Ea. set (a := dot (vsub v1 v0) (cross (V3 0 0 1) (vsub v2 v0))) in *.
    assert (Ha : ~ a == 0) by (rewrite Ea; assert (0 < eps) by reflexivity; destruct S as [S|S]; lra).
    repeat split; apply (proj1 (Qmult_inj_r _ _ a Ha)); [rewrite C, C'|rewrite A, A'|rewrite B, B']; reflexivity. }
  split; [|split; [apply zRay_hits|]].
  - destruct (zRay_cases p v0 v1 v2) as [[E _]|(t & u & v & _ & _ & E)]; rewrite E; cbn [fst]; [left; reflexivity|]. unfold rank.
    destruct (_ || _); [right; left; reflexivity|]. destruct (_ || _); [right; right; left; reflexivity|right; right; right; reflexivity].
  - intros S t u v M. split; [exact (Uq S t u v M)|].
    destruct (zRay_cases p v0 v1 v2) as [[E N]|(t' & u' & v' & _ & M' & E)]; rewrite E; cbn [fst].
    + exfalso. apply N. split; [exact S|]. eauto.
    + destruct (Uq S t u v M t' u' v' M') as (_ & Eu & Ev). unfold rank. destruct M as (_ & M1 & M2 & M3 & _).
      assert (Eu0 : eqb u' 0 = true <-> u == 0) by (rewrite eqb_spec; lra). assert (Ev0 : eqb v' 0 = true <-> v == 0) by (rewrite eqb_spec; lra).
      assert (Eu1 : eqb u' 1 = true <-> u == 1) by (rewrite eqb_spec; lra). assert (Ev1 : eqb v' 1 = true <-> v == 1) by (rewrite eqb_spec; lra).
      assert (Es : eqb (u' + v') 1 = true <-> u + v == 1) by (rewrite eqb_spec; lra).
      assert (N1 : ~ (1 # 2) == (1 # 6)) by (intros X; discriminate X). assert (N2 : ~ 1 == (1 # 6)) by (intros X; discriminate X).
      assert (N3 : ~ (1 # 6) == 1) by (intros X; discriminate X). assert (N4 : ~ (1 # 2) == 1) by (intros X; discriminate X).
      destruct (eqb u' 0), (eqb v' 0), (eqb u' 1), (eqb v' 1), (eqb (u' + v') 1); cbn [andb orb];
      repeat match goal with H : true = true <-> _ |- _ => apply proj1 in H; specialize (H eq_refl) end;
      repeat match goal with H : false = true <-> ?x |- _ => let K := fresh in assert (K : ~ x) by (intros K; apply H in K; discriminate K); clear H end;
      (split; split; intros X; try (exfalso; lra); try reflexivity; try tauto; try lra).
Qed.
Print Assumptions C71_ray_triangle.

(** C70: the stored intersection point is displaced by v1 - v0. *)
Theorem C70_intersection_point_partial (p v0 v1 v2 : v3) t u v :
  steepEnough v0 v1 v2 -> meetsAt p v0 v1 v2 t u v ->
  exists i, snd (zRay p v0 v1 v2) = Some i /\
    veq i (V3 (vx (above p t) + (vx v1 - vx v0)) (vy (above p t) + (vy v1 - vy v0)) (vz (above p t) + (vz v1 - vz v0))).
Proof.
  intros S M. destruct (zRay_cases p v0 v1 v2) as [[E N]|(t' & u' & v' & _ & M' & E)]; rewrite E; cbn [snd].
  - exfalso. apply N. split; [exact S|]. eauto.
  - eexists. split; [reflexivity|]. destruct (C71_ray_triangle p v0 v1 v2) as (_ & _ & H). destruct (proj1 (H S t u v M) t' u' v' M') as (Et & Eu & Ev).
    destruct M as (_ & _ & _ & _ & Hx & Hy & Hz). unfold veq, stored, above, onTriangle, vsub in *; cbn [vx vy vz] in *.
    rewrite Eu, Ev. repeat split; lra.
Qed.
Print Assumptions C70_intersection_point_partial.
Theorem C70_intersection_point_refuted :
  exists p v0 v1 v2 t u v i, steepEnough v0 v1 v2 /\ meetsAt p v0 v1 v2 t u v /\ snd (zRay p v0 v1 v2) = Some i /\ ~ veq i (above p t).
Proof.
  set (p := V3 1 1 0). set (v0 := V3 0 0 1). set (v1 := V3 4 0 1). set (v2 := V3 0 4 1).
  assert (S : steepEnough v0 v1 v2) by (right; unfold area2, eps; cbn; lra).
  assert (M : meetsAt p v0 v1 v2 1 (1 # 4) (1 # 4)) by (unfold meetsAt, veq, eps; cbn; repeat split; lra).
  destruct (C70_intersection_point_partial p v0 v1 v2 _ _ _ S M) as (i & E & Ex & _).
  exists p, v0, v1, v2, 1, (1 # 4), (1 # 4), i. split; [exact S|]. split; [exact M|]. split; [exact E|].
  intros (X & _). rewrite X in Ex. cbn in Ex. lra.
Qed.
Print Assumptions C70_intersection_point_refuted.

(** C27: what areInside computes: the point is in the bounding box of the grid and the ray hits
    at least one triangle.  In particular it never misses a point whose ray has an odd number of
    crossings (and that lies in the box). *)
Lemma split_pieces els : forall ts, splitElements els = Some ts -> forall t, In t ts <-> exists e, In e els /\ pieceOf e t.
Proof.
  induction els as [|e els IH]; intros ts E t; cbn [splitElements] in E.
  - inversion E; subst. split; [intros []|intros (e & [] & _)].
  - destruct e as [|a [|b [|c [|d [|? ?]]]]]; try discriminate; destruct (splitElements els) as [l|]; try discriminate;
      inversion E; subst; clear E; specialize (IH l eq_refl t); cbn [In].
    + split.
      * intros [<-|H]; [exists [a; b; c]; cbn; auto|]. apply IH in H. destruct H as (e & H & P). exists e. auto.
      * intros (e & [<-|H] & P); [left; cbn in P; auto|right; apply IH; eauto].
    + split.
      * intros [<-|[<-|H]]; [exists [a; b; c; d]; cbn; auto..|]. apply IH in H. destruct H as (e & H & P). exists e. auto.
      * intros (e & [<-|H] & P); [destruct P; auto|right; right; apply IH; eauto].
Qed.
Theorem C27_inside_partial (els : list (list v3)) (p : v3) :
  els <> [] -> (forall e, In e els -> length e = 3%nat \/ length e = 4%nat) ->
  exists b, isInside p els = Some b /\
    (b = true <-> inGridBox p els /\ exists e t, In e els /\ pieceOf e t /\ hits p t).
Proof.
  intros Hne H. assert (E : exists ts, splitElements els = Some ts).
  { clear Hne. induction els as [|e els IH]; [eexists; reflexivity|]. destruct IH as (ts & E); [intros; apply H; now right|].
    destruct (H e (or_introl eq_refl)) as [L|L]; destruct e as [|a [|b [|c [|d [|? ?]]]]]; try discriminate; cbn [splitElements]; rewrite E; eexists; reflexivity. }
  destruct E as (ts & E). destruct (isInside_spec p E Hne) as (b & Eb & Hb). exists b. split; auto. rewrite Hb.
  pose proof (@split_pieces els ts E) as SP. split; intros (G & X); split; auto.
  - destruct X as (t & Ht & Hh). apply SP in Ht. destruct Ht as (e & He & P). eauto.
  - destruct X as (e & t & He & P & Hh). exists t. split; auto. apply SP. eauto.
Qed.
Print Assumptions C27_inside_partial.

(** two tetrahedra; the point lies below the first one, outside of both *)
Definition tetra (a b c d : v3) : list (list v3) := [[a; c; b]; [a; b; d]; [b; c; d]; [c; a; d]].
Definition twoTets : list (list v3) :=
  tetra (V3 0 0 2) (V3 4 0 2) (V3 0 4 2) (V3 1 1 6) ++ tetra (V3 10 0 0) (V3 14 0 0) (V3 10 4 0) (V3 11 1 1).
Definition outside : v3 := V3 1 (1 # 2) 1.
Example C27_wrong_answer : isInside outside twoTets = Some true.
Proof. vm_compute. reflexivity. Qed.
Theorem C27_parity_refuted :
  exists els ts p hs, splitElements els = Some ts /\ closedSurface ts /\ onlyInterior p ts /\
    NoDup hs /\ (forall t, In t hs -> In t ts) /\ (forall t, In t ts -> (hits p t <-> In t hs)) /\
    Nat.even (length hs) = true /\ isInside p els = Some true.
Proof.
  destruct (splitElements twoTets) as [ts|] eqn:E; [|vm_compute in E; discriminate].
  exists twoTets, ts, outside, (filter (fun t => let '(a, b, c) := t in ltb 0 (fst (zRay outside a b c))) ts).
  assert (Ets : ts = match splitElements twoTets with Some l => l | None => [] end) by (rewrite E; reflexivity).
  assert (N : NoDup ts). { rewrite Ets. vm_compute. repeat constructor; cbn; intuition discriminate. }
  split; [exact E|]. split.
  { assert (B : forallb (fun e => Nat.eqb (length (filter (fun e' => v3eqb (fst e) (snd e') && v3eqb (snd e) (fst e')) (edgesOf ts))) 1) (edgesOf ts) = true)
      by (rewrite Ets; vm_compute; reflexivity).
    apply Forall_forall. intros e He. rewrite forallb_forall in B. apply Nat.eqb_eq. now apply B. }
  split.
  { intros a b c t u v Hin M.
    rewrite Ets in Hin. cbn in Hin.
    repeat (destruct Hin as [Hin|Hin]; [inversion Hin; subst a b c; clear Hin; destruct M as (M1 & M2 & M3 & M4 & Mx & My & Mz); unfold eps in M1; cbn [above onTriangle outside vx vy vz] in *; lra|]).
    destruct Hin. }
  split; [now apply NoDup_filter|]. split; [intros t Ht; apply filter_In in Ht; tauto|].
  split. { intros [[a b] c] Hin. rewrite filter_In, ltb_spec, zRay_hits. tauto. }
  split; [rewrite Ets; vm_compute; reflexivity|exact C27_wrong_answer].
Qed.
Print Assumptions C27_parity_refuted.
