(** C172, C173: entities by index and by insertion index. *)
From Coq Require Import List Arith ZArith Bool Lia.
Import ListNotations.
From Verif Require Import EntModel EntSpec.
Set Implicit Arguments.
Unset Strict Implicit.

Lemma setNth_ok A (l : list A) i v : i < length l -> exists l', setNth l i v = Some l' /\ length l' = length l /\
  forall k, nth_error l' k = if k =? i then Some v else nth_error l k.
Proof.
  revert i. induction l as [|a r IH]; cbn; intros i L; [lia|]. destruct i as [|i].
  - eexists. split; [reflexivity|]. split; [reflexivity|]. intros [|k]; reflexivity.
  - destruct (IH i) as (l' & -> & L' & P); [lia|]. eexists. split; [reflexivity|]. split; [cbn; lia|]. intros [|k]; cbn; [reflexivity|apply P].
Qed.
Lemma reverse_ok E (index : E -> nat) count es : NoDup (map index es) -> (forall e, In e es -> index e < count) ->
  forall m, length m = count -> exists m', reverseLoop index es m = (m', true) /\ length m' = count /\
   (forall e, In e es -> nth_error m' (index e) = Some (Some e)) /\
   (forall k, (forall e, In e es -> index e <> k) -> nth_error m' k = nth_error m k).
Proof.
  induction es as [|e r IH]; cbn; intros N B m L. { exists m. repeat split; auto; easy. }
  inversion_clear N as [|? ? N1 N2]. destruct (@setNth_ok _ m (index e) (Some e)) as (m1 & -> & L1 & P1); [rewrite L; apply B; now left|].
  destruct (IH N2) with (m := m1) as (m' & E1 & L' & P & Q); [intros; apply B; now right|congruence|].
  exists m'. split; [exact E1|]. split; [exact L'|]. split.
  - intros x [<-|I]; [|now apply P]. rewrite Q, P1, Nat.eqb_refl; [reflexivity|]. intros y I H. apply N1. rewrite <- H. now apply in_map.
  - intros k H. rewrite Q by (intros; apply H; now right). rewrite P1. destruct (Nat.eqb_spec k (index e)); [|reflexivity]. exfalso. apply (H e); [now left|congruence].
Qed.
Lemma numbered_all E (ents : list E) count index k : numbered ents count index -> k < count -> exists e, In e ents /\ index e = k.
Proof.
  intros (L & N & B) K. assert (I : incl (seq 0 count) (map index ents)).
  { apply NoDup_length_incl; [exact N|rewrite map_length, seq_length; lia|]. intros x I. apply in_map_iff in I as (e & <- & I). apply in_seq. specialize (B _ I). lia. }
  specialize (I k). rewrite in_map_iff in I. destruct I as (e & <- & I); [apply in_seq; lia|]. eauto.
Qed.
Lemma history_nth S O (f : S -> Z -> S * O) calls : forall st n o, nth_error (history f st calls) n = Some o ->
  exists st' i, nth_error calls n = Some i /\ snd (f st' i) = o /\ (n = 0 -> st' = st) /\ (n <> 0 -> exists st0 i0, st' = fst (f st0 i0)) /\
   (n <> 0 -> forall (P : S -> Prop), P st -> (forall s j, P s -> P (fst (f s j))) -> P st').
Proof.
  induction calls as [|i r IH]; cbn; intros st n o H; [destruct n; discriminate|]. destruct (f st i) as [st1 o1] eqn:F. destruct n as [|n]; cbn in H.
  - injection H as <-. exists st, i. rewrite F. repeat split; auto; easy.
  - destruct (IH _ _ _ H) as (st' & j & A & B & C & D & G). exists st', j. cbn. split; [exact A|]. split; [exact B|]. split; [easy|]. split.
    + intros _. destruct n as [|n]; [|apply D; easy]. rewrite (C eq_refl). exists st, i. now rewrite F.
    + intros _ P P0 PS. assert (P1 : P st1) by (specialize (PS st i P0); now rewrite F in PS). destruct n as [|n]; [now rewrite (C eq_refl)|]. now apply G.
Qed.

(** C172.  Whatever was asked before: call number n with argument i returns the entity with index i; negative arguments count from
    the end; all others raise. *)
Theorem C172_entity_from_index : forall E (ents : list E) count index calls n i, numbered ents count index ->
  nth_error calls n = Some i ->
  exists o, nth_error (history (fromIndex ents count index) None calls) n = Some o /\
   ((0 <= i < Z.of_nat count)%Z -> exists e, In e ents /\ Z.of_nat (index e) = i /\ o = Returns (Some e)) /\
   ((- Z.of_nat count <= i < 0)%Z -> exists e, In e ents /\ Z.of_nat (index e) = (i + Z.of_nat count)%Z /\ o = Returns (Some e)) /\
   ((i < - Z.of_nat count)%Z \/ (Z.of_nat count <= i)%Z -> o = Raises).
Proof.
  intros E ents count index calls n i N Hi. pose proof N as (L & ND & B).
  destruct (@reverse_ok E index count ents ND B (repeat None count) (repeat_length _ _)) as (m & R & LM & PM & _).
  assert (ST : forall st j, (st = None \/ st = Some m) -> fromIndex ents count index st j =
     (Some m, match pyIndex m j with Some x => Returns x | None => Raises end)).
  { intros st j [->| ->]; unfold fromIndex; [now rewrite R|reflexivity]. }
  assert (H : forall calls st n i, (st = None \/ st = Some m) -> nth_error calls n = Some i -> nth_error (history (fromIndex ents count index) st calls) n =
     Some (match pyIndex m i with Some x => Returns x | None => Raises end)).
  { clear n i Hi calls. induction calls as [|j r IH]; intros st n i S Hi; [destruct n; discriminate|]. cbn [history]. rewrite ST by exact S.
    destruct n as [|n]; cbn in Hi |- *; [injection Hi as ->; reflexivity|]. apply IH; auto. }
  rewrite (H _ _ _ _ (or_introl eq_refl) Hi). eexists. split; [reflexivity|]. unfold pyIndex. rewrite LM. split; [|split].
  - intro I. destruct (@numbered_all _ _ _ _ (Z.to_nat i) N) as (e & Ie & Ee); [lia|]. exists e. split; [exact Ie|]. split; [lia|].
    destruct (Z.leb_spec 0 i), (Z.ltb_spec i (Z.of_nat count)); try lia. cbn [andb]. now rewrite <- Ee, (PM _ Ie).
  - intro I. destruct (@numbered_all _ _ _ _ (Z.to_nat (i + Z.of_nat count)) N) as (e & Ie & Ee); [lia|]. exists e. split; [exact Ie|]. split; [lia|].
    destruct (Z.leb_spec 0 i); [lia|]. destruct (Z.leb_spec (- Z.of_nat count) i), (Z.ltb_spec i 0); try lia. cbn [andb]. now rewrite <- Ee, (PM _ Ie).
  - intro I. destruct (Z.leb_spec 0 i), (Z.ltb_spec i (Z.of_nat count)), (Z.leb_spec (- Z.of_nat count) i), (Z.ltb_spec i 0); try lia; reflexivity.
Qed.
Print Assumptions C172_entity_from_index.
(** three entities with indices 2, 0, 1 *)
Definition ex_index (c : nat) : nat := match c with 7 => 2 | 8 => 0 | _ => 1 end.
Example C172_ex : numbered [7; 8; 9] 3 ex_index /\
  history (fromIndex [7; 8; 9] 3 ex_index) None [0; 2; -3; 3]%Z = [Returns (Some 8); Returns (Some 7); Returns (Some 8); Raises].
Proof.
  split; [|vm_compute; reflexivity]. split; [reflexivity|]. split.
  - cbn. repeat constructor; cbn; intuition lia.
  - intros e [<-|[<-|[<-|[]]]]; cbn; lia.
Qed.

Lemma find_rev_ins E (insertion : E -> option nat) es : NoDup (map insertion es) -> (forall e, In e es -> insertion e <> None) ->
  forall d idx, exists d', insertionLoop insertion es d idx = (d', match last (map insertion es) None with Some k => Z.of_nat k | None => idx end, true) /\
   (forall e k, In e es -> insertion e = Some k -> lookupKey d' (Z.of_nat k) = Some e) /\
   (forall i, (forall e k, In e es -> insertion e = Some k -> Z.of_nat k <> i) -> lookupKey d' i = lookupKey d i).
Proof.
  induction es as [|e r IH]; intros N S d idx. { exists d. cbn. repeat split; auto; easy. }
  cbn [map] in N. inversion_clear N as [|? ? N1 N2]. cbn [insertionLoop]. destruct (insertion e) as [k|] eqn:K; [|exfalso; apply (S e); [now left|exact K]].
  destruct (IH N2 (fun x I => S x (or_intror I)) ((k, e) :: d) (Z.of_nat k)) as (d' & E1 & P & Q). exists d'. split; [|split].
  - rewrite E1. f_equal. f_equal. cbn [map]. rewrite K. destruct r as [|x r']; [reflexivity|].
    change (last (Some k :: map insertion (x :: r')) None) with (last (map insertion (x :: r')) None).
    assert (X : last (map insertion (x :: r')) None <> None).
    { assert (IN : In (last (map insertion (x :: r')) None) (map insertion (x :: r'))).
      { destruct (@exists_last _ (map insertion (x :: r'))) as (l & a & ->); [discriminate|]. rewrite last_last. apply in_or_app. right. now left. }
      apply in_map_iff in IN as (y & <- & Iy). apply S. now right. }
    destruct (last (map insertion (x :: r')) None); [reflexivity|congruence].
  - intros x j [<-|I] J; [|now apply P]. assert (j = k) by congruence. subst j. rewrite Q.
    + unfold lookupKey. cbn. now rewrite Z.eqb_refl.
    + intros y j Iy Jy E2. apply Nat2Z.inj in E2. subst j. apply N1. rewrite <- Jy. now apply in_map.
  - intros i H. rewrite Q by (intros y j Iy; apply H; now right). unfold lookupKey. cbn. destruct (Z.eqb_spec (Z.of_nat k) i); [|reflexivity].
    exfalso. apply (H e k); auto. now left.
Qed.

(** C173, what holds: every call but the first returns the entity with the given insertion index. *)
Theorem C173_later_calls_partial : forall E (ents : list E) insertion calls n k e, inserted ents insertion ->
  nth_error calls (S n) = Some (Z.of_nat k) -> In e ents -> insertion e = Some k ->
  nth_error (history (fromInsertionIndex ents insertion) None calls) (S n) = Some (Returns e).
Proof.
  intros E ents insertion calls n k e (N & F) Hi Ie Ke.
  destruct (@find_rev_ins E insertion ents N F [] 0%Z) as (d & E1 & P & _).
  assert (FST : forall i, fst (fromInsertionIndex ents insertion None i) = Some d).
  { intro i. destruct (@find_rev_ins E insertion ents N F [] i) as (d2 & E2 & _). unfold fromInsertionIndex. rewrite E2. cbn [fst]. f_equal.
    assert (G : forall es d0 i j, fst (fst (insertionLoop insertion es d0 i)) = fst (fst (insertionLoop insertion es d0 j))).
    { clear. induction es as [|x r IH]; cbn; intros; [reflexivity|]. destruct (insertion x); [reflexivity|reflexivity]. }
    specialize (G ents [] 0%Z i). rewrite E1, E2 in G. cbn in G. congruence. }
  destruct calls as [|c0 calls]; [discriminate|]. cbn [history nth_error] in *. specialize (FST c0). destruct (fromInsertionIndex ents insertion None c0) as [st o].
  cbn in FST. subst st. cbn [nth_error].
  revert n Hi. induction calls as [|j r IH]; intros n Hi; [destruct n; discriminate|]. cbn [history fromInsertionIndex]. destruct n as [|n]; cbn in Hi |- *.
  - injection Hi as ->. now rewrite (P _ _ Ie Ke).
  - now apply IH.
Qed.
Print Assumptions C173_later_calls_partial.
(** The first call returns the entity visited last, whatever the argument. *)
Theorem C173_first_call : forall E (ents : list E) insertion i e l, inserted (l ++ [e]) insertion -> ents = l ++ [e] ->
  history (fromInsertionIndex ents insertion) None [i] = [Returns e].
Proof.
  intros E ents insertion i e l (N & F) ->. destruct (@find_rev_ins E insertion (l ++ [e]) N F [] i) as (d & E1 & P & _).
  cbn [history fromInsertionIndex]. unfold fromInsertionIndex. rewrite E1. rewrite map_app. cbn [map]. rewrite last_last.
  destruct (insertion e) as [k|] eqn:K; [|exfalso; apply (F e); [apply in_or_app; right; now left|exact K]].
  cbn. rewrite (P e k); [reflexivity|apply in_or_app; right; now left|exact K].
Qed.
Print Assumptions C173_first_call.
(** C173 fails: two entities, the first call asks for the one with insertion index 0 and gets the other. *)
Theorem C173_entity_from_insertion_index_refuted : exists (ents : list nat) insertion e e', inserted ents insertion /\
  In e ents /\ insertion e = Some 0 /\ insertion e' <> Some 0 /\
  history (fromInsertionIndex ents insertion) None [0; 0]%Z = [Returns e'; Returns e].
Proof.
  exists [5; 6], (fun c => Some (c - 5)), 5, 6. split; [|split; [now left|split; [reflexivity|split; [discriminate|reflexivity]]]].
  split; [|intros; discriminate]. cbn. repeat constructor; cbn; intuition discriminate.
Qed.
Print Assumptions C173_entity_from_insertion_index_refuted.
Example C173_ex : inserted [5; 6; 9] (fun c => Some c) /\ history (fromInsertionIndex [5; 6; 9] (fun c => Some c)) None [6; 6; 5; 7]%Z = [Returns 9; Returns 6; Returns 5; Raises].
Proof. split; [|reflexivity]. split; [|intros; discriminate]. cbn. repeat constructor; cbn; intuition discriminate. Qed.
