(** C179, C180: the space spanned by the unit function. *)
From Coq Require Import List Arith Reals Lia Lra Permutation.
Import ListNotations.
From Verif Require Import Base BoxModel GridGeomModel UssModel UssSpec.
Set Implicit Arguments.
Unset Strict Implicit.

Lemma assignLoop_ok indices : NoDup indices -> forall l2g loc, (forall i, In i indices -> i < length l2g) ->
  exists l, assignLoop indices l2g loc = Some (l, loc ++ map (fun i => (i, 0)) indices) /\ length l = length l2g /\
    (forall i, In i indices -> nth_error l i = Some [0]) /\ (forall i, ~ In i indices -> nth_error l i = nth_error l2g i).
Proof.
  induction indices as [|i r IH]; cbn; intros N l2g loc B. { exists l2g. rewrite app_nil_r. repeat split; auto; easy. }
  inversion_clear N as [|? ? N1 N2]. destruct (@upd_Some _ l2g i [0]) as (o & U); [apply B; now left|]. rewrite U.
  pose proof (upd_length _ _ _ U) as L. destruct (IH N2 o (loc ++ [(i, 0)])) as (l & E & L' & P & Q); [intros k K; rewrite L; apply B; now right|].
  exists l. rewrite <- app_assoc in E. split; [exact E|]. split; [lia|]. split.
  - intros k [<-|K]; [|now apply P]. rewrite Q by exact N1. now rewrite (upd_nth_error _ _ _ _ U), Nat.eqb_refl.
  - intros k K. rewrite Q by tauto. rewrite (upd_nth_error _ _ _ _ U). destruct (Nat.eqb_spec k i); [subst; tauto|reflexivity].
Qed.

(** C179. There is one global dof; it is the dof of every element; the local dofs of the global one are local dof 0 of every element,
    each once; and the flat local dof of an element is its index. *)
Theorem C179_single_dof : forall indices elementCount, Permutation indices (seq 0 elementCount) ->
  exists d, assignDofs indices elementCount = Some d /\ globalDofCount d = 1 /\
    (forall e, e < elementCount -> getGlobalDofs d e = Some [0]) /\
    (exists l, global2localDofs d [0] = [Some l] /\ Permutation l (map (fun e => (e, 0)) (seq 0 elementCount))) /\
    (forall f, In f (seq 0 elementCount) -> flatLocal2localDofs [f] = [(f, 0)]).
Proof.
  intros indices n H. destruct (@assignLoop_ok indices) with (l2g := repeat (@nil nat) n) (loc := @nil (nat * nat)) as (l & E & L & P & _).
  - apply (Permutation_NoDup (Permutation_sym H)), seq_NoDup.
  - intros i I. apply (Permutation_in _ H), in_seq in I. rewrite repeat_length. lia.
  - unfold assignDofs. rewrite E. eexists. split; [reflexivity|]. split; [reflexivity|]. split; [|split].
    + intros e He. apply P. apply (Permutation_in _ (Permutation_sym H)), in_seq. lia.
    + eexists. split; [reflexivity|]. now apply Permutation_map.
    + reflexivity.
Qed.
Print Assumptions C179_single_dof.
Example C179_instance : Permutation [2; 0; 1] (seq 0 3) /\ option_map global2local (assignDofs [2; 0; 1] 3) = Some [[(2, 0); (0, 0); (1, 0)]].
Proof. split; [|reflexivity]. apply NoDup_Permutation; [repeat constructor; cbn; lia|apply seq_NoDup|intros x; cbn; lia]. Qed.

Local Open Scope R_scope.
(** one coordinate *)
Lemma sum_coord (f : point -> R) (F : forall a b, f (addPoint a b) = f a + f b) lo hi es :
  (forall t, In t es -> lo <= f (center t) <= hi) -> forall s, f s + INR (length es) * lo <= f (fold_left (fun s t => addPoint s (center t)) es s) <= f s + INR (length es) * hi.
Proof.
  induction es as [|t r IH]; intros H s. { cbn. lra. }
  cbn [fold_left length]. rewrite S_INR. pose proof (H t (or_introl eq_refl)) as T. specialize (IH (fun x I => H x (or_intror I)) (addPoint s (center t))). rewrite F in IH. lra.
Qed.
Lemma widen_fold cs : forall b, let b' := fold_left widen cs b in
  below (fst b') (fst b) /\ below (snd b) (snd b') /\ (forall c, In c cs -> below (fst b') c /\ below c (snd b')) /\
  (px (fst b') = px (fst b) \/ exists c, In c cs /\ px c = px (fst b')) /\ (py (fst b') = py (fst b) \/ exists c, In c cs /\ py c = py (fst b')) /\
  (pz (fst b') = pz (fst b) \/ exists c, In c cs /\ pz c = pz (fst b')) /\
  (px (snd b') = px (snd b) \/ exists c, In c cs /\ px c = px (snd b')) /\ (py (snd b') = py (snd b) \/ exists c, In c cs /\ py c = py (snd b')) /\
  (pz (snd b') = pz (snd b) \/ exists c, In c cs /\ pz c = pz (snd b')).
Proof.
  induction cs as [|a r IH]; cbn [fold_left]; intros b.
  - cbn. unfold below. repeat split; try lra; try now left; destruct H.
  - destruct (IH (widen b a)) as (A & B & C & X1 & X2 & X3 & X4 & X5 & X6). cbn zeta in *. set (b' := fold_left widen r (widen b a)) in *. clearbody b'.
    unfold below in *. unfold widen in A, B, X1, X2, X3, X4, X5, X6. cbn [fst snd] in *. change (px (?x, ?y, ?z)) with x in *.
    pose proof (Rmin_l (px (fst b)) (px a)). pose proof (Rmin_r (px (fst b)) (px a)). pose proof (Rmin_l (py (fst b)) (py a)). pose proof (Rmin_r (py (fst b)) (py a)).
    pose proof (Rmin_l (pz (fst b)) (pz a)). pose proof (Rmin_r (pz (fst b)) (pz a)). pose proof (Rmax_l (px (snd b)) (px a)). pose proof (Rmax_r (px (snd b)) (px a)).
    pose proof (Rmax_l (py (snd b)) (py a)). pose proof (Rmax_r (py (snd b)) (py a)). pose proof (Rmax_l (pz (snd b)) (pz a)). pose proof (Rmax_r (pz (snd b)) (pz a)).
    unfold px, py, pz in *. cbn [fst snd] in *. split; [lra|]. split; [lra|]. split.
    { intros c [<-|I]; [lra|now apply C]. }
    split; [destruct X1 as [X|(c & I & X)]; [unfold Rmin in X; destruct (Rle_dec _ _) in X; [now left|right; exists a; split; [now left|now symmetry]]|right; exists c; split; [now right|exact X]]|].
    split; [destruct X2 as [X|(c & I & X)]; [unfold Rmin in X; destruct (Rle_dec _ _) in X; [now left|right; exists a; split; [now left|now symmetry]]|right; exists c; split; [now right|exact X]]|].
    split; [destruct X3 as [X|(c & I & X)]; [unfold Rmin in X; destruct (Rle_dec _ _) in X; [now left|right; exists a; split; [now left|now symmetry]]|right; exists c; split; [now right|exact X]]|].
    split; [destruct X4 as [X|(c & I & X)]; [unfold Rmax in X; destruct (Rle_dec _ _) in X; [right; exists a; split; [now left|now symmetry]|now left]|right; exists c; split; [now right|exact X]]|].
    split; [destruct X5 as [X|(c & I & X)]; [unfold Rmax in X; destruct (Rle_dec _ _) in X; [right; exists a; split; [now left|now symmetry]|now left]|right; exists c; split; [now right|exact X]]|].
    destruct X6 as [X|(c & I & X)]; [unfold Rmax in X; destruct (Rle_dec _ _) in X; [right; exists a; split; [now left|now symmetry]|now left]|right; exists c; split; [now right|exact X]].
Qed.
Lemma split_fold es : forall s b, fold_left (fun sb t => (addPoint (fst sb) (center t), fold_left widen (cornersOf t) (snd sb))) es (s, b) =
  (fold_left (fun s t => addPoint s (center t)) es s, fold_left widen (flat_map cornersOf es) b).
Proof. induction es as [|t r IH]; intros s b; cbn [fold_left flat_map]; [reflexivity|]. now rewrite IH, fold_left_app. Qed.
Lemma corner_iff es c : In c (flat_map cornersOf es) <-> isCorner es c.
Proof.
  rewrite in_flat_map. unfold isCorner. split.
  - intros ([[p q] r] & I & J). exists p, q, r. cbn in J. intuition congruence.
  - intros (p & q & r & I & J). exists (p, q, r). cbn. intuition congruence.
Qed.

(** C180. The dof's position is the mean of the elements' centres; its bounding box is the smallest box that holds all corners; its
    reference point is that position and lies in the box, so that the debug assertions hold (in exact arithmetic). *)
Theorem C180_bounding_box : forall M elements, elements <> [] -> representable M elements ->
  let '(reference, (lo, hi)) := dofBoundingBox M elements in
  reference = dofPosition elements /\ (forall c, isCorner elements c -> below lo c /\ below c hi) /\ tight elements lo hi /\
  below lo reference /\ below reference hi.
Proof.
  intros M es NE REP. unfold dofBoundingBox. rewrite split_fold.
  destruct (widen_fold (flat_map cornersOf es) ((M, M, M), (- M, - M, - M))) as (_ & _ & C & X). cbn zeta in *.
  destruct (fold_left widen _ _) as [lo hi]. cbn [fst snd] in *.
  assert (C' : forall c, isCorner es c -> below lo c /\ below c hi) by (intros c I; apply C; now apply corner_iff).
  split; [reflexivity|]. split; [exact C'|].
  assert (W : exists w, isCorner es w). { destruct es as [|[[p q] r] l]; [easy|]. exists p, p, q, r. split; [now left|now left]. }
  destruct W as (w & W). pose proof (REP w W) as RW. pose proof (C' w W) as CW.
  split.
  - destruct X as (X1 & X2 & X3 & X4 & X5 & X6). unfold below, px, py, pz in *. cbn [fst snd] in *. unfold tight, px, py, pz.
    repeat split;
    [destruct X1 as [X|(c & I & X)]|destruct X2 as [X|(c & I & X)]|destruct X3 as [X|(c & I & X)]|destruct X4 as [X|(c & I & X)]|destruct X5 as [X|(c & I & X)]|destruct X6 as [X|(c & I & X)]];
    first [exists c; split; [now apply corner_iff|exact X]|exists w; split; [exact W|lra]].
  - assert (K : forall (f : point -> R) l h, (forall a b, f (addPoint a b) = f a + f b) -> f (0, 0, 0) = 0 ->
       (forall p q r, f (barycentre p q r) = (f p + f q + f r) / 3) -> (forall c, isCorner es c -> l <= f c <= h) ->
       l <= f (fold_left (fun s t => addPoint s (center t)) es (0, 0, 0)) / INR (length es) <= h).
    { intros f l h F Z B H. pose proof (@sum_coord f F l h es) as S. assert (P : 0 < INR (length es)) by (apply lt_0_INR; destruct es; [easy|cbn; lia]).
      assert (T : forall t, In t es -> l <= f (center t) <= h).
      { intros [[p q] r] I. cbn. rewrite B. assert (l <= f p <= h) by (apply H; exists p, q, r; auto). assert (l <= f q <= h) by (apply H; exists p, q, r; auto).
        assert (l <= f r <= h) by (apply H; exists p, q, r; auto). lra. }
      specialize (S T (0, 0, 0)). rewrite Z in S. set (n := INR (length es)) in *. clearbody n. set (v := f (fold_left _ _ _)) in *. clearbody v.
      assert (Q : v = (v / n) * n) by (field; lra). set (w' := v / n) in *. clearbody w'. subst v. split; apply (Rmult_le_reg_r n); lra. }
    assert (K1 := @K px (px lo) (px hi)). assert (K2 := @K py (py lo) (py hi)). assert (K3 := @K pz (pz lo) (pz hi)).
    assert (H1 : forall c, isCorner es c -> px lo <= px c <= px hi) by (intros c I; destruct (C' c I) as [A B]; unfold below in *; lra).
    assert (H2 : forall c, isCorner es c -> py lo <= py c <= py hi) by (intros c I; destruct (C' c I) as [A B]; unfold below in *; lra).
    assert (H3 : forall c, isCorner es c -> pz lo <= pz c <= pz hi) by (intros c I; destruct (C' c I) as [A B]; unfold below in *; lra).
    specialize (K1 ltac:(reflexivity) ltac:(reflexivity) ltac:(reflexivity) H1). specialize (K2 ltac:(reflexivity) ltac:(reflexivity) ltac:(reflexivity) H2).
    specialize (K3 ltac:(reflexivity) ltac:(reflexivity) ltac:(reflexivity) H3). split; (split; [|split]).
    + exact (proj1 K1). + exact (proj1 K2). + exact (proj1 K3). + exact (proj2 K1). + exact (proj2 K2). + exact (proj2 K3).
Qed.
Print Assumptions C180_bounding_box.
Example C180_instance : let t := ((0, 0, 0), (1, 0, 0), (0, 2, 1)) in [t] <> [] /\ representable 5 [t].
Proof.
  split; [discriminate|]. intros c (p & q & r & [E|[]] & H). injection E. intros. subst. unfold below, px, py, pz. destruct H as [-> | [-> | ->]]; cbn; lra.
Qed.
