From Coq Require Import Reals Lra.
From Verif Require Import Base ComplexR SegModel SegSpec SegProofs AsmModel SpaceModel SpaceSpec SpaceProofs VecModel BaryModel BarySpec BaryProofs BcModel BcSpec BcProofs.
Set Implicit Arguments.
Unset Strict Implicit.
Local Open Scope Z_scope.

(** ---- the loop that counts its steps ends ---- *)
Lemma access_running A B (x : option A) (f : A -> outcome B) : (forall a, x = Some a -> f a <> Running) -> access x f <> Running.
Proof. destruct x; cbn; [auto|discriminate]. Qed.
Lemma bindO_running A B (x : outcome A) (f : A -> outcome B) : x <> Running -> (forall a, x = Done a -> f a <> Running) -> bindO x f <> Running.
Proof. destruct x; cbn; auto; discriminate. Qed.
Section Stop.
Variables (next e2f f2e : list Z) (d n : Z) (onB : bool) (target : Z) (w : R).
Lemma walk_stops : forall fuel i face past st, 0 < Z.of_nat fuel -> i + 3 * n + 1 < Z.of_nat fuel -> walk true next e2f f2e d n onB target w fuel i face past st <> Running.
Proof.
  induction fuel as [|fuel IH]; intros i face past st F0 F; [lia|]. cbn [walk andb]. destruct (face =? target); [discriminate|]. destruct (Z.ltb_spec i (- n * 3)) as [L|L]; [discriminate|].
  apply access_running. intros (b & past') _. apply access_running. intros st2 _. apply access_running. intros face' _. apply access_running. intros st3 _. apply IH; lia.
Qed.
Lemma walkEnd_stops fuel st : 0 < Z.of_nat fuel -> 4 * n < Z.of_nat fuel -> walkEnd true next e2f f2e d n onB target w fuel st <> Running.
Proof.
  intros F0 F. unfold walkEnd. apply access_running. intros face _. apply access_running. intros st1 _. apply bindO_running; [apply walk_stops; lia|]. intros st2 _. apply access_running. discriminate.
Qed.
End Stop.
Lemma foldO_running A S (f : S -> A -> outcome S) : (forall s a, f s a <> Running) -> forall l s, foldO f l s <> Running.
Proof. intros H l. induction l as [|a l IH]; intro s; cbn; [discriminate|]. apply bindO_running; auto. Qed.
Definition stepBound (t : bctables) : nat := S (fold_right Nat.max 0%nat (map (fun n => Z.to_nat (4 * n)) (t_n t))).
Lemma edgeStep_stops t fuel : (stepBound t <= fuel)%nat -> forall st i, edgeStep true fuel t st i <> Running.
Proof.
  intros F st i. assert (B : forall x n, zget (t_n t) x = Some n -> 4 * n < Z.of_nat fuel).
  { intros x n H. unfold zget in H. destruct (x <? 0); [discriminate|]. apply nth_error_In in H. unfold stepBound in F. assert (Z.to_nat (4 * n) <= fold_right Nat.max 0%nat (map (fun n => Z.to_nat (4 * n)) (t_n t)))%nat; [|lia].
    clear F. induction (t_n t) as [|m l IH]; [destruct H|]. cbn [map fold_right]. destruct H as [->|H]; [lia|]. specialize (IH H). lia. }
  assert (F0 : 0 < Z.of_nat fuel) by (unfold stepBound in F; lia).
  unfold edgeStep. apply access_running. intros dd _. destruct (dd =? -1); [discriminate|]. apply access_running. intros ((f0 & n0) & b0) E.
  destruct (zread (t_v0 t) i) as [x0|]; [|discriminate]. destruct (zread (t_face0 t) i); [|discriminate]. cbn [obind] in E. destruct (zget (t_n t) x0) as [m0|] eqn:N0; [|discriminate]. cbn [obind] in E. destruct (zget (t_onB t) x0); [|discriminate]. injection E as <- <- <-.
  apply bindO_running; [apply walkEnd_stops; [exact F0|now apply (B x0)]|]. intros st1 _. apply access_running. intros ((f1 & n1) & b1) E.
  destruct (zread (t_v1 t) i) as [x1|]; [|discriminate]. destruct (zread (t_face1 t) i); [|discriminate]. cbn [obind] in E. destruct (zget (t_n t) x1) as [m1|] eqn:N1; [|discriminate]. cbn [obind] in E. destruct (zget (t_onB t) x1); [|discriminate]. injection E as <- <- <-.
  apply walkEnd_stops; [exact F0|now apply (B x1)].
Qed.
Lemma bc_stops g fg son order : exists N, forall fuel, (N <= fuel)%nat -> bcAssign true g fg son order fuel <> Running.
Proof.
  unfold bcAssign. destruct (bcTables g fg son order) as [t|]; [|exists 0%nat; discriminate]. exists (stepBound t). intros fuel F. cbn [access]. apply bindO_running; [|discriminate].
  apply foldO_running. now apply edgeStep_stops.
Qed.

(** ---- the other loop, among faces C that lead to each other but not to the target ---- *)
Section Forever.
Variables (next e2f f2e : list Z) (d n : Z) (onB : bool) (target : Z) (w : R) (C : list Z) (nf nd : nat).
Hypotheses (D : 0 <= d < Z.of_nat nd) (CR : forall f, In f C -> 0 <= f < Z.of_nat nf /\ f <> target)
  (CN : forall f, In f C -> exists f', zget next f = Some f' /\ In f' C) (CE : forall f, In f C -> exists a x, zget f2e f = Some a /\ zget e2f a = Some x).
Definition shapeOk (st : bcstate) : Prop := length (bc_cols st) = nf /\ length (bc_l2g st) = nf /\ length (bc_w st) = nf /\ length (bc_g2l st) = nd.
Lemma add_ok st f c : shapeOk st -> 0 <= f < Z.of_nat nf -> exists st' l, addColumn st f c = Some st' /\ shapeOk st' /\ zget (bc_cols st') f = Some (l ++ [c]).
Proof.
  intros (L1 & L2 & L3 & L4) R. unfold addColumn. destruct (@zpush_get _ (bc_cols st) f c) as (l' & E & L & P); [lia|]. rewrite E. cbn [obind]. destruct (@zget_Some _ (bc_cols st) f) as (l & G); [lia|].
  exists (BcState l' (bc_l2g st) (bc_w st) (bc_g2l st)), l. split; [reflexivity|]. split; [unfold shapeOk; cbn; repeat split; congruence|]. cbn. rewrite (P _ _ G), Z.eqb_refl. reflexivity.
Qed.
Lemma set_ok st f l c h : shapeOk st -> 0 <= f < Z.of_nat nf -> zget (bc_cols st) f = Some (l ++ [c]) -> exists st', setColumn st f h = Some st' /\ shapeOk st'.
Proof.
  intros (L1 & L2 & L3 & L4) R G. unfold setColumn. rewrite G. cbn [obind]. rewrite rev_unit. destruct (@zset_Some _ (bc_cols st) f (rev (rev l) ++ [h c])) as (l' & E); [lia|]. rewrite E. cbn [obind].
  eexists. split; [reflexivity|]. unfold shapeOk. cbn. rewrite (zset_length _ _ _ E). auto.
Qed.
Lemma push_ok st f : shapeOk st -> 0 <= f < Z.of_nat nf -> exists st', pushDof st f d w = Some st' /\ shapeOk st'.
Proof.
  intros (L1 & L2 & L3 & L4) R. unfold pushDof. destruct (@zget_Some _ (bc_cols st) f) as (l & G); [lia|]. rewrite G. cbn [obind].
  destruct (@zpush_get _ (bc_l2g st) f d) as (a & Ea & La & _); [lia|]. destruct (@zpush_get _ (bc_w st) f w) as (b & Eb & Lb & _); [lia|]. destruct (@zpush_get _ (bc_g2l st) d (f, (length l - 1)%nat)) as (c & Ec & Lc & _); [lia|].
  rewrite Ea. cbn [obind]. rewrite Eb. cbn [obind]. rewrite Ec. cbn [obind]. eexists. split; [reflexivity|]. unfold shapeOk. cbn. repeat split; congruence.
Qed.
Lemma walk_forever : forall fuel i face past st l c, In face C -> shapeOk st -> zget (bc_cols st) face = Some (l ++ [c]) ->
  walk false next e2f f2e d n onB target w fuel i face past st = Running.
Proof.
  induction fuel as [|fuel IH]; intros i face past st l c I S G; destruct (CR I) as (R & NT); cbn [walk]; (destruct (Z.eqb_spec face target) as [|_]; [contradiction|]); [reflexivity|]. cbn [andb].
  destruct (CE I) as (a & x & E1 & E2). destruct (CN I) as (f' & N & I').
  assert (X : exists b p, (if onB then (if past then Some (((IZR n - 1) / IZR n)%R, true) else a <- zget f2e face ;; x <- zget e2f a ;; Some ((-1 / IZR n)%R, (x =? -1)))
              else Some ((- IZR i * 1 / (2 * IZR n))%R, past)) = Some (b, p)).
  { destruct onB; [|eauto]. destruct past; [eauto|]. rewrite E1. cbn [obind]. rewrite E2. cbn [obind]. eauto. }
  destruct X as (b & p & ->). cbn [access]. destruct (set_ok (fun c => Col (k0 c) b (k2 c)) S R G) as (st1 & -> & S1). cbn [obind]. destruct (push_ok S1 R) as (st2 & -> & S2). cbn [access].
  rewrite N. cbn [access].
  match goal with |- context [addColumn st2 f' ?c] => destruct (@add_ok st2 f' c S2 (proj1 (CR I'))) as (st3 & l3 & -> & S3 & G3) end. cbn [access]. now apply (IH _ _ _ _ _ _ I' S3 G3).
Qed.
End Forever.
