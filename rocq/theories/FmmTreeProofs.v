(** Proofs about the sets built by the octree constructor. *)
From Coq Require Import List NArith ZArith Bool Lia Arith.
Import ListNotations.
From Verif Require Import FmmModel FmmSpec FmmProofs.
Local Open Scope N_scope.

Lemma memb_In n l : memb n l = true <-> In n l.
Proof.
  unfold memb. rewrite existsb_exists. split.
  - intros (x & H & E). apply N.eqb_eq in E. now subst.
  - intros H. exists n. split; [exact H|apply N.eqb_refl].
Qed.
Lemma in_ins f k n j m : In m (ins f k n j) <-> In m (f j) \/ (j = k /\ m = n).
Proof.
  unfold ins. destruct (Nat.eqb_spec j k) as [->|H]; cbn [In]; intuition.
Qed.

(** markParents adds, to level index j < lev, the (lev - j)-fold parent *)
Lemma markParents_spec lev : forall p f j m,
  In m (markParents lev p f j) <-> In m (f j) \/ ((j < lev)%nat /\ m = ancestor (N.of_nat (lev - j)) p).
Proof.
  induction lev as [|lev IH]; intros p f j m; cbn [markParents].
  - intuition lia.
  - rewrite IH, in_ins. 
    assert (A : forall i, ancestor (N.of_nat i) (getParent p) = ancestor (N.of_nat (S i)) p).
    { intros i. unfold ancestor. rewrite getParent_div, N.div_div; [|lia|apply N.pow_nonzero; lia].
      rewrite Nat2N.inj_succ, N.pow_succ_r'. reflexivity. }
    assert (A0 : getParent p = ancestor (N.of_nat 1) p).
    { unfold ancestor. rewrite getParent_div. reflexivity. }
    split.
    + intros [[H|[-> ->]]|[H ->]]; [now left| |].
      * right. split; [lia|]. rewrite A0. repeat f_equal. lia.
      * right. split; [lia|]. rewrite A. repeat f_equal. lia.
    + intros [H|[H ->]]; [now left; left|].
      destruct (Nat.eq_dec j lev) as [->|Hne].
      * left. right. split; [reflexivity|]. rewrite A0. repeat f_equal. lia.
      * right. split; [lia|]. rewrite A. repeat f_equal. lia.
Qed.

Definition nodesSound (L : nat) (leafs : list N) (f : nat -> list N) : Prop :=
  forall j m, In m (f j) -> exists e, In e leafs /\
    ((j = L - 1)%nat /\ m = e \/ (j < L)%nat /\ m = ancestor (N.of_nat (L - j)) e).
Definition leafsIn (L : nat) (leafs : list N) (f : nat -> list N) : Prop :=
  forall e, In e leafs -> In e (f (L - 1)%nat).

Lemma fold_sound L : forall ents f g leafs, (0 < L)%nat ->
  nodesSound L leafs f -> leafsIn L leafs f ->
  nodesSound L (leafs ++ map snd ents) (fst (fold_left (addEntity L) ents (f, g))) /\
  leafsIn L (leafs ++ map snd ents) (fst (fold_left (addEntity L) ents (f, g))).
Proof.
  induction ents as [|[idx e] ents IH]; intros f g leafs HL Hs Hl; cbn [fold_left map snd].
  - rewrite app_nil_r. cbn. auto.
  - cbn [addEntity].
    replace (leafs ++ e :: map snd ents) with ((leafs ++ [e]) ++ map snd ents) by (rewrite <- app_assoc; reflexivity).
    apply IH; [exact HL| |].
    + intros j m. destruct (memb e (f (L - 1)%nat)) eqn:E.
      * intros H. destruct (Hs j m H) as (e' & He' & D). exists e'. rewrite in_app_iff. tauto.
      * rewrite markParents_spec, in_ins. intros [[H|[-> ->]]|[H ->]].
        -- destruct (Hs j m H) as (e' & He' & D). exists e'. rewrite in_app_iff. tauto.
        -- exists e. rewrite in_app_iff. cbn. tauto.
        -- exists e. rewrite in_app_iff. cbn. tauto.
    + intros m. rewrite in_app_iff. intros [H|[<-|[]]].
      * destruct (memb e (f (L - 1)%nat)); [now apply Hl|]. rewrite markParents_spec, in_ins. left; left; now apply Hl.
      * destruct (memb e (f (L - 1)%nat)) eqn:E; [now apply memb_In|].
        rewrite markParents_spec, in_ins. auto.
Qed.

Lemma map_snd_combine A B (l1 : list A) (l2 : list B) : length l1 = length l2 -> map snd (combine l1 l2) = l2.
Proof.
  revert l2. induction l1 as [|a l1 IH]; intros [|b l2] H; try discriminate; [reflexivity|].
  cbn. f_equal. apply IH. now inversion H.
Qed.

Lemma build_sound L leafs o : buildOctree L leafs = Some o ->
  (0 < L)%nat /\ levels o = L /\ nodesSound L leafs (nodes o) /\ leafsIn L leafs (nodes o).
Proof.
  unfold buildOctree. destruct (Nat.eqb_spec L 0) as [->|HL]; [discriminate|].
  destruct (fold_left _ _ _) as [f g] eqn:E. intros H. inversion H; subst; clear H. cbn [levels nodes].
  split; [lia|]. split; [reflexivity|].
  pose proof (fold_sound L (combine (seq 0 (length leafs)) leafs) (fun _ => []) (fun _ => []) []) as F.
  rewrite E in F. rewrite map_snd_combine in F by apply seq_length.
  apply F; [lia| |]; intros j; [intros m []|intros []].
Qed.

(** leaf lists *)
Lemma fold_leaf L : forall ents f g n,
  snd (fold_left (addEntity L) ents (f, g)) n = g n ++ map fst (filter (fun e => snd e =? n) ents).
Proof.
  induction ents as [|[idx e] ents IH]; intros f g n; cbn [fold_left filter map snd].
  - now rewrite app_nil_r.
  - cbn [addEntity]. rewrite IH. rewrite (N.eqb_sym n e). destruct (e =? n); cbn [map fst]; [|reflexivity].
    rewrite <- app_assoc. reflexivity.
Qed.
Lemma build_leaf L leafs o n : buildOctree L leafs = Some o ->
  leafEntities o n = filter (fun i => nth i leafs 0 =? n) (seq 0 (length leafs)).
Proof.
  unfold buildOctree. destruct (Nat.eqb_spec L 0) as [->|HL]; [discriminate|].
  destruct (fold_left _ _ _) as [f g] eqn:E. intros H. inversion H; subst; clear H. cbn [leafEntities].
  pose proof (fold_leaf L (combine (seq 0 (length leafs)) leafs) (fun _ => []) (fun _ => []) n) as F.
  rewrite E in F. cbn [snd app] in F. rewrite F. clear.
  assert (G : forall l k (h : nat -> N), (forall i, (i < length l)%nat -> h (k + i)%nat = nth i l 0) ->
    map fst (filter (fun e => snd e =? n) (combine (seq k (length l)) l)) = filter (fun i => h i =? n) (seq k (length l))).
  { induction l as [|a l IH]; intros k h Hh; [reflexivity|]. cbn [length seq combine filter snd].
    assert (Ha : h k = a). { rewrite <- (Nat.add_0_r k). rewrite Hh; [reflexivity|cbn; lia]. }
    rewrite Ha. rewrite <- (IH (S k) h).
    - destruct (a =? n); reflexivity.
    - intros i Hi. rewrite Nat.add_succ_comm. rewrite Hh; [reflexivity|cbn; lia]. }
  apply G. intros i Hi. reflexivity.
Qed.
