From Coq Require Import Reals List Arith Bool Lia Lra Permutation.
Import ListNotations.
From Verif Require Import BoxModel GridModel GridSpec GridGeomModel GridProofs SphModel SphSpec.
Set Implicit Arguments.

(** ---- the map of lines ---- *)
Definition keyEqb (a b : nat * nat) : bool := (fst a =? fst b) && (snd a =? snd b).
Lemma keyEqb_spec a b : reflect (a = b) (keyEqb a b).
Proof.
  destruct a as [a a'], b as [b b']. unfold keyEqb. cbn. destruct (Nat.eqb_spec a b), (Nat.eqb_spec a' b'); constructor; congruence.
Qed.
Fixpoint indexOf (K : list (nat * nat)) (t : nat * nat) : nat :=
  match K with [] => 0 | k :: r => if keyEqb k t then 0 else S (indexOf r t) end.
Definition memK (K : list (nat * nat)) (t : nat * nat) : bool := existsb (fun k => keyEqb k t) K.
Lemma memK_spec K t : reflect (In t K) (memK K t).
Proof.
  unfold memK. destruct (existsb _ K) eqn:E; constructor.
  - apply existsb_exists in E as (k & I & H). destruct (keyEqb_spec k t); [congruence|discriminate].
  - intro I. assert (existsb (fun k => keyEqb k t) K = true); [|congruence]. apply existsb_exists. exists t. split; [exact I|].
    destruct (keyEqb_spec t t); congruence.
Qed.
Lemma indexOf_lt K t : In t K -> indexOf K t < length K.
Proof. induction K as [|k r IH]; [easy|]. intros [->|I]; cbn. { destruct (keyEqb_spec t t); [lia|congruence]. } destruct (keyEqb_spec k t); [lia|]. specialize (IH I). lia. Qed.
Lemma indexOf_nth K t : In t K -> nth_error K (indexOf K t) = Some t.
Proof.
  induction K as [|k r IH]; [easy|]. cbn. destruct (keyEqb_spec k t) as [->|N]; [reflexivity|].
  intros [E|I]; [congruence|]. cbn. now apply IH.
Qed.
Lemma indexOf_inj K s t : In s K -> In t K -> indexOf K s = indexOf K t -> s = t.
Proof. intros I J E. apply indexOf_nth in I. apply indexOf_nth in J. rewrite E in I. congruence. Qed.
Lemma indexOf_app K L t : In t K -> indexOf (K ++ L) t = indexOf K t.
Proof. induction K as [|k r IH]; [easy|]. cbn. destruct (keyEqb_spec k t) as [->|N]; [reflexivity|]. intros [E|I]; [congruence|]. now rewrite IH. Qed.
Lemma indexOf_new K t : ~ In t K -> indexOf (K ++ [t]) t = length K.
Proof. induction K as [|k r IH]; cbn. { destruct (keyEqb_spec t t); congruence. } intro N. destruct (keyEqb_spec k t); [tauto|]. rewrite IH; tauto. Qed.
Definition addK (K : list (nat * nat)) t := if memK K t then K else K ++ [t].
Definition addAll (K ts : list (nat * nat)) := fold_left addK ts K.
Lemma addK_in K t x : In x (addK K t) <-> In x K \/ x = t.
Proof. unfold addK. destruct (memK_spec K t) as [I|N]. { split; [tauto|]. intros [H| ->]; auto. } rewrite in_app_iff. cbn. intuition congruence. Qed.
Lemma addAll_in ts : forall K x, In x (addAll K ts) <-> In x K \/ In x ts.
Proof. induction ts as [|t r IH]; intros K x; cbn; [tauto|]. unfold addAll in IH. rewrite IH, addK_in. intuition congruence. Qed.
Lemma addK_nodup K t : NoDup K -> NoDup (addK K t).
Proof.
  intro N. unfold addK. destruct (memK_spec K t) as [I|M]; [exact N|]. clear -N M. induction K as [|k r IH]; cbn. { constructor; [easy|constructor]. }
  inversion_clear N. constructor. { rewrite in_app_iff. cbn. cbn in M. intuition congruence. } apply IH; [auto|]. cbn in M. tauto.
Qed.
Lemma addAll_nodup ts : forall K, NoDup K -> NoDup (addAll K ts).
Proof. induction ts as [|t r IH]; intros K N; cbn; [exact N|]. apply IH. now apply addK_nodup. Qed.
Lemma addK_ext K t : exists L, addK K t = K ++ L.
Proof. unfold addK. destruct (memK K t); [exists []; now rewrite app_nil_r|eexists; reflexivity]. Qed.
Lemma addAll_ext ts : forall K, exists L, addAll K ts = K ++ L.
Proof.
  induction ts as [|t r IH]; intros K; cbn. { exists []; now rewrite app_nil_r. }
  destruct (addK_ext K t) as (L & E). destruct (IH (addK K t)) as (L' & E'). exists (L ++ L'). rewrite app_assoc, <- E. exact E'.
Qed.
Lemma addAll_stable K ts t : In t K -> indexOf (addAll K ts) t = indexOf K t.
Proof. intro I. destruct (addAll_ext ts K) as (L & ->). now apply indexOf_app. Qed.

Lemma lineKey_sym p q : lineKey p q = lineKey q p.
Proof. unfold lineKey. destruct (Nat.ltb_spec p q), (Nat.ltb_spec q p); try reflexivity; try lia. replace q with p by lia. reflexivity. Qed.
Lemma lineKey_inj p q p' q' : lineKey p q = lineKey p' q' -> (p = p' /\ q = q') \/ (p = q' /\ q = p').
Proof. unfold lineKey. destruct (p <? q), (p' <? q'); intros [= -> ->]; tauto. Qed.
Lemma lineKey_or p q : lineKey p q = (p, q) \/ lineKey p q = (q, p).
Proof. unfold lineKey. destruct (p <? q); tauto. Qed.

Section Loop.
  Variable N0 : list point.
  Let n0 := length N0.
  Definition midAt (t : nat * nat) : point :=
    match nth_error N0 (fst t), nth_error N0 (snd t) with Some a, Some b => midpoint a b | _, _ => (0, 0, 0)%R end.
  Definition ST (K : list (nat * nat)) : sstate := SState (combine K (seq n0 (length K))) (N0 ++ map midAt K) (n0 + length K).
  Lemma findLine_ok K : forall b t, findLine (combine K (seq b (length K))) t = if memK K t then Some (b + indexOf K t) else None.
  Proof.
    unfold findLine, memK. induction K as [|k r IH]; intros b t; cbn; [reflexivity|]. fold (keyEqb k t).
    destruct (keyEqb k t) eqn:E; cbn; [f_equal; lia|]. rewrite IH. destruct (existsb _ r); [f_equal; lia|reflexivity].
  Qed.
  Lemma midAt_sym p q : midAt (p, q) = midAt (q, p).
  Proof.
    unfold midAt. cbn. destruct (nth_error N0 p) as [[[a b] c]|], (nth_error N0 q) as [[[a' b'] c']|]; try reflexivity.
    unfold midpoint, px, py, pz. cbn. f_equal; [f_equal|]; lra.
  Qed.
  Lemma midAt_key p q a b : nth_error N0 p = Some a -> nth_error N0 q = Some b -> midAt (lineKey p q) = midpoint a b.
  Proof.
    intros A B. assert (E : midAt (p, q) = midpoint a b) by (unfold midAt; cbn; now rewrite A, B).
    destruct (lineKey_or p q) as [->| ->]; [exact E|]. now rewrite midAt_sym.
  Qed.
  Lemma side_ok e i K : i < 3 -> nodesBelow n0 e ->
    sideNode e i (ST K) = Some (n0 + indexOf (addK K (lineKey (enode e i) (enode e ((i + 1) mod 3)))) (lineKey (enode e i) (enode e ((i + 1) mod 3))),
                                ST (addK K (lineKey (enode e i) (enode e ((i + 1) mod 3))))).
  Proof.
    intros I B. unfold sideNode. set (p := enode e i). set (q := enode e ((i + 1) mod 3)). set (t := lineKey p q).
    cbn [ss_map ss_nodes ss_n ST]. rewrite findLine_ok. unfold addK. destruct (memK_spec K t) as [M|M]; [reflexivity|].
    assert (P : p < n0). { destruct B as (? & ? & ?). unfold p. destruct i as [|[|[|]]]; cbn; lia. }
    assert (Q : q < n0). { destruct B as (? & ? & ?). unfold q. destruct i as [|[|[|]]]; cbn; lia. }
    destruct (nth_error N0 p) as [a|] eqn:A; [|apply nth_error_None in A; fold n0 in A; lia].
    destruct (nth_error N0 q) as [b|] eqn:A'; [|apply nth_error_None in A'; fold n0 in A'; lia].
    rewrite !nth_error_app1 by (fold n0; lia). rewrite A, A'. rewrite indexOf_new by exact M.
    unfold ST. rewrite app_length, map_app. cbn [length map]. assert (MK : midAt t = midpoint a b) by exact (midAt_key _ _ A A'). rewrite MK, app_assoc, Nat.add_1_r, Nat.add_succ_r.
    assert (C : forall L b0, combine L (seq b0 (length L)) ++ [(t, b0 + length L)] = combine (L ++ [t]) (seq b0 (S (length L)))).
    { clear. induction L as [|k r IH]; intros b; cbn. { now rewrite Nat.add_0_r. }
      f_equal. rewrite <- Nat.add_succ_comm. apply IH. }
    now rewrite C.
  Qed.
  Definition keysOf (e : elt) := [lineKey (enode e 0) (enode e 1); lineKey (enode e 1) (enode e 2); lineKey (enode e 2) (enode e 0)].
  Definition mid (K : list (nat * nat)) p q := n0 + indexOf K (lineKey p q).
  Definition kids (m : nat -> nat -> nat) (e : elt) :=
    children e (m (enode e 0) (enode e 1)) (m (enode e 1) (enode e 2)) (m (enode e 2) (enode e 0)).
  Lemma refineLoop_ok es : forall K, Forall (nodesBelow n0) es ->
    refineLoop es (ST K) = Some (flat_map (kids (mid (addAll K (flat_map keysOf es)))) es, ST (addAll K (flat_map keysOf es))).
  Proof.
    induction es as [|e r IH]; intros K F; [reflexivity|]. inversion_clear F as [|? ? Fe Fr]. cbn [refineLoop flat_map].
    rewrite (@side_ok e 0) by (auto; lia). cbn [Nat.add Nat.modulo Nat.divmod fst snd Nat.sub].
    change ((0 + 1) mod 3) with 1. rewrite (@side_ok e 1) by (auto; lia). change ((1 + 1) mod 3) with 2.
    rewrite (@side_ok e 2) by (auto; lia). change ((2 + 1) mod 3) with 0.
    rewrite (IH _ Fr). set (k0 := lineKey (enode e 0) (enode e 1)). set (k1 := lineKey (enode e 1) (enode e 2)). set (k2 := lineKey (enode e 2) (enode e 0)).
    assert (E : addAll K (keysOf e ++ flat_map keysOf r) = addAll (addK (addK (addK K k0) k1) k2) (flat_map keysOf r)) by reflexivity.
    rewrite E. do 3 f_equal. unfold kids, mid. fold k0 k1 k2.
    assert (S0 : indexOf (addK K k0) k0 = indexOf (addAll (addK (addK (addK K k0) k1) k2) (flat_map keysOf r)) k0).
    { rewrite addAll_stable by (rewrite !addK_in; tauto). destruct (addK_ext (addK (addK K k0) k1) k2) as (L & ->). rewrite indexOf_app by (rewrite !addK_in; tauto).
      destruct (addK_ext (addK K k0) k1) as (L' & ->). now rewrite indexOf_app by (rewrite !addK_in; tauto). }
    assert (S1 : indexOf (addK (addK K k0) k1) k1 = indexOf (addAll (addK (addK (addK K k0) k1) k2) (flat_map keysOf r)) k1).
    { rewrite addAll_stable by (rewrite !addK_in; tauto). destruct (addK_ext (addK (addK K k0) k1) k2) as (L & ->). now rewrite indexOf_app by (rewrite !addK_in; tauto). }
    assert (S2 : indexOf (addK (addK (addK K k0) k1) k2) k2 = indexOf (addAll (addK (addK (addK K k0) k1) k2) (flat_map keysOf r)) k2).
    { now rewrite addAll_stable by (rewrite !addK_in; tauto). }
    rewrite S0, S1, S2. reflexivity.
  Qed.
End Loop.

Unset Strict Implicit.
(** ---- combinatorics of one refinement ---- *)
Section Comb.
  Variable n0 : nat.
  Variable m : nat -> nat -> nat.
  Variable es : list elt.
  Hypothesis below : Forall (nodesBelow n0) es.
  Hypothesis msym : forall p q, m p q = m q p.
  Hypothesis mge : forall t i p q, sideAt es t i (p, q) -> n0 <= m p q.
  Hypothesis minj : forall t i p q t' i' p' q', sideAt es t i (p, q) -> sideAt es t' i' (p', q') -> m p q = m p' q' ->
    (p = p' /\ q = q') \/ (p = q' /\ q = p').
  Hypothesis closed : closedOriented es.
  (** triangles are not traversed in both directions *)
  Variable pos : nat -> nat -> nat -> Prop.
  Hypothesis posE : forall e, In e es -> pos (enode e 0) (enode e 1) (enode e 2).
  Hypothesis posC : forall a b c, pos a b c -> pos b c a.
  Hypothesis posN : forall a b c, pos a b c -> ~ pos b a c.
  Hypothesis posD : forall a b c, pos a b c -> a <> b.

  (** the twelve directed sides of the children: halves of side s, and sides between the midpoints of sides s and t *)
  Inductive code := H1 (s : nat) | H2 (s : nat) | In2 (s t : nat).
  Definition nx (s : nat) := match s with 0 => 1 | 1 => 2 | _ => 0 end.
  Definition mp (e : elt) (s : nat) := m (enode e s) (enode e (nx s)).
  Definition interp (e : elt) (c : code) : nat * nat :=
    match c with H1 s => (enode e s, mp e s) | H2 s => (mp e s, enode e (nx s)) | In2 s t => (mp e s, mp e t) end.
  Definition codeAt (r i : nat) : code :=
    match r, i with
    | 0, 0 => H1 0 | 0, 1 => In2 0 2 | 0, _ => H2 2
    | 1, 0 => H2 0 | 1, 1 => H1 1 | 1, _ => In2 1 0
    | 2, 0 => H2 1 | 2, 1 => H1 2 | 2, _ => In2 2 1
    | _, 0 => In2 0 1 | _, 1 => In2 1 2 | _, _ => In2 2 0
    end.
  Definition okCode (c : code) : Prop := match c with H1 s | H2 s => s < 3 | In2 s t => s < 3 /\ t < 3 /\ s <> t end.
  Lemma codeAt_ok r i : r < 4 -> i < 3 -> okCode (codeAt r i).
  Proof. intros R I. destruct r as [|[|[|[|]]]]; try lia; destruct i as [|[|[|]]]; try lia; cbn; lia. Qed.
  Lemma codeAt_inj r i r' i' : r < 4 -> i < 3 -> r' < 4 -> i' < 3 -> codeAt r i = codeAt r' i' -> r = r' /\ i = i'.
  Proof.
    intros R I R' I'. destruct r as [|[|[|[|]]]]; try lia; destruct i as [|[|[|]]]; try lia;
    destruct r' as [|[|[|[|]]]]; try lia; destruct i' as [|[|[|]]]; try lia; cbn; intros [=]; auto.
  Qed.
  Lemma codeAt_sur c : okCode c -> exists r i, r < 4 /\ i < 3 /\ codeAt r i = c.
  Proof.
    destruct c as [s|s|s t]; cbn; intro O.
    - destruct s as [|[|[|]]]; try lia; [exists 0, 0|exists 1, 1|exists 2, 1]; repeat split; lia.
    - destruct s as [|[|[|]]]; try lia; [exists 1, 0|exists 2, 0|exists 0, 2]; repeat split; lia.
    - destruct O as (O1 & O2 & O3). destruct s as [|[|[|]]], t as [|[|[|]]]; try lia; 
      [exists 3, 0|exists 0, 1|exists 1, 2|exists 3, 1|exists 3, 2|exists 2, 2]; repeat split; lia.
  Qed.
  Lemma kid_side t i d : sideAt (flat_map (kids m) es) t i d <->
    exists e, nth_error es (t / 4) = Some e /\ i < 3 /\ d = interp e (codeAt (t mod 4) i).
  Proof.
    unfold sideAt. rewrite (@nth_flat_map_const elt elt (kids m) 4) by (reflexivity || lia).
    assert (R : t mod 4 < 4) by (apply Nat.mod_upper_bound; lia). revert R. generalize (t mod 4) as r. intros r R.
    destruct (nth_error es (t / 4)) as [[[a b] c]|]; [|split; [intros (e & E & _)|intros (e & E & _)]; discriminate].
    split.
    - intros (e & E & S). exists (a, b, c). split; [reflexivity|].
      destruct r as [|[|[|[|]]]]; try lia; cbn in E; injection E as <-; destruct i as [|[|[|i]]]; cbn in S; try (destruct i; discriminate); injection S as <-; (split; [lia|]); cbn; unfold mp; cbn; reflexivity.
    - intros (e & E & I & ->). injection E as <-.
      destruct r as [|[|[|[|]]]]; try lia; cbn; eexists; (split; [reflexivity|]); destruct i as [|[|[|i]]]; try lia; cbn; unfold mp; cbn; reflexivity.
  Qed.
  Lemma side_enode e i d : nth_error (directedSides e) i = Some d <-> i < 3 /\ d = (enode e i, enode e (nx i)).
  Proof.
    destruct e as [[a b] c]. split.
    - destruct i as [|[|[|i]]]; cbn; try (destruct i; discriminate); intros [= <-]; split; auto; lia.
    - intros (I & ->). destruct i as [|[|[|i]]]; try lia; reflexivity.
  Qed.
  Lemma es_side t e i : nth_error es t = Some e -> i < 3 -> sideAt es t i (enode e i, enode e (nx i)).
  Proof. intros E I. exists e. split; [exact E|]. apply side_enode. auto. Qed.
  Lemma old_lt e s : In e es -> enode e s < n0.
  Proof. intro I. rewrite Forall_forall in below. destruct (below _ I) as (? & ? & ?). destruct s as [|[|]]; cbn; lia. Qed.
  Lemma mp_ge t e s : nth_error es t = Some e -> s < 3 -> n0 <= mp e s.
  Proof. intros E S. unfold mp. eapply mge. apply (es_side E S). Qed.
  Lemma mp_eq t e s t' e' s' : nth_error es t = Some e -> nth_error es t' = Some e' -> s < 3 -> s' < 3 -> mp e s = mp e' s' ->
    (t = t' /\ s = s') \/ (enode e s = enode e' (nx s') /\ enode e (nx s) = enode e' s').
  Proof.
    intros E E' S S' M. pose proof (es_side E S) as A. pose proof (es_side E' S') as A'.
    destruct (minj A A' M) as [(P & Q)|(P & Q)]; [|tauto]. left. rewrite <- P, <- Q in A'. destruct closed as (U & _). exact (U _ _ _ _ _ A A').
  Qed.
  Lemma dist_side e s : In e es -> s < 3 -> enode e s <> enode e (nx s).
  Proof.
    intros I S. pose proof (posE I) as P. destruct s as [|[|[|]]]; try lia; cbn [nx].
    - exact (posD P). - exact (posD (posC P)). - exact (posD (posC (posC P))).
  Qed.
  Lemma interp_inj t e t' e' c c' : nth_error es t = Some e -> nth_error es t' = Some e' -> okCode c -> okCode c' ->
    interp e c = interp e' c' -> t = t' /\ c = c'.
  Proof.
    intros E E' O O' EQ. pose proof (nth_error_In _ _ E) as I. pose proof (nth_error_In _ _ E') as I'.
    destruct c as [s|s|s u], c' as [s'|s'|s' u']; cbn in O, O', EQ; injection EQ as X Y.
    - destruct (mp_eq E E' O O' Y) as [(-> & ->)|(P & Q)]; [auto|]. exfalso. rewrite X in P. exact (dist_side I' O' P).
    - exfalso. pose proof (old_lt s I). pose proof (mp_ge E' O'). lia.
    - exfalso. destruct O' as (O' & _). pose proof (old_lt s I). pose proof (mp_ge E' O'). lia.
    - exfalso. pose proof (old_lt s' I'). pose proof (mp_ge E O). lia.
    - destruct (mp_eq E E' O O' X) as [(-> & ->)|(P & Q)]; [auto|]. exfalso. rewrite Y in Q. exact (dist_side I' O' (eq_sym Q)).
    - exfalso. destruct O' as (_ & O' & _). pose proof (old_lt (nx s) I). pose proof (mp_ge E' O'). lia.
    - exfalso. destruct O as (O & _). pose proof (old_lt s' I'). pose proof (mp_ge E O). lia.
    - exfalso. destruct O as (_ & O & _). pose proof (old_lt (nx s') I'). pose proof (mp_ge E O). lia.
    - destruct O as (O1 & O2 & O3), O' as (O1' & O2' & O3').
      assert (SAME : t = t' -> t = t' /\ In2 s u = In2 s' u').
      { intros <-. assert (e' = e) by congruence. subst e'. split; [reflexivity|].
        assert (S : forall s s', s < 3 -> s' < 3 -> mp e s = mp e s' -> s = s').
        { clear - E I posE posC posD minj closed. intros s s' A A' M. destruct (mp_eq E E A A' M) as [(_ & ->)|(P & Q)]; [reflexivity|]. exfalso.
          pose proof (@dist_side e 0 I) as D0. pose proof (@dist_side e 1 I) as D1. pose proof (@dist_side e 2 I) as D2. cbn [nx] in *.
          destruct s as [|[|[|]]]; try lia; destruct s' as [|[|[|]]]; try lia; cbn [nx] in P, Q; try (now apply D0); try (now apply D1); try (now apply D2);
          try (apply D0; [lia|congruence]); try (apply D1; [lia|congruence]); try (apply D2; [lia|congruence]). }
        rewrite (S _ _ O1 O1' X), (S _ _ O2 O2' Y). reflexivity. }
      destruct (mp_eq E E' O1 O1' X) as [(T & _)|(P & Q)]; [exact (SAME T)|].
      destruct (mp_eq E E' O2 O2' Y) as [(T & _)|(P' & Q')]; [exact (SAME T)|]. exfalso.
      pose proof (posE I) as A. pose proof (posE I') as B.
      assert (N1 := posN A). assert (N2 := posN (posC A)). assert (N3 := posN (posC (posC A))).
      assert (B1 := posC B). assert (B2 := posC B1).
      pose proof (@dist_side e 0 I) as D0. pose proof (@dist_side e 1 I) as D1. pose proof (@dist_side e 2 I) as D2.
      pose proof (@dist_side e' 0 I') as D0'. pose proof (@dist_side e' 1 I') as D1'. pose proof (@dist_side e' 2 I') as D2'.
      cbn [nx] in *. destruct e as [[a b] c], e' as [[a' b'] c']. cbn [enode fst snd] in *.
      destruct s as [|[|[|]]]; try lia; destruct u as [|[|[|]]]; try lia; destruct s' as [|[|[|]]]; try lia; destruct u' as [|[|[|]]]; try lia;
      cbn [enode fst snd nx] in *; subst; try (now (apply D0; lia)); try (now (apply D1; lia)); try (now (apply D2; lia));
      try (now (apply D0'; lia)); try (now (apply D1'; lia)); try (now (apply D2'; lia)); tauto.
  Qed.
  Lemma kids_closed : closedOriented (flat_map (kids m) es).
  Proof.
    split.
    - intros t t' i i' d A B. apply kid_side in A as (e & E & I & ->). apply kid_side in B as (e' & E' & I' & EQ).
      assert (R : t mod 4 < 4) by (apply Nat.mod_upper_bound; lia). assert (R' : t' mod 4 < 4) by (apply Nat.mod_upper_bound; lia).
      destruct (interp_inj E E' (codeAt_ok R I) (codeAt_ok R' I') EQ) as (T & C). apply codeAt_inj in C as (C1 & C2); auto.
      split; [|exact C2]. rewrite (Nat.div_mod t 4), (Nat.div_mod t' 4) by lia. congruence.
    - intros t i p q A. apply kid_side in A as (e & E & I & EQ).
      assert (MK : forall t' e' c, nth_error es t' = Some e' -> okCode c -> (q, p) = interp e' c -> exists t' i', sideAt (flat_map (kids m) es) t' i' (q, p)).
      { intros t' e' c E' O X. destruct (codeAt_sur O) as (r & j & R & J & <-). exists (r + t' * 4), j. apply kid_side. exists e'.
        rewrite Nat.div_add, Nat.mod_add, Nat.div_small, Nat.mod_small by lia. auto. }
      assert (R : t mod 4 < 4) by (apply Nat.mod_upper_bound; lia). pose proof (codeAt_ok R I) as O.
      destruct (codeAt (t mod 4) i) as [s|s|s u]; cbn in EQ, O; injection EQ as -> ->.
      + destruct closed as (_ & C). destruct (C _ _ _ _ (es_side E O)) as (t' & i' & e' & E' & D'). apply side_enode in D' as (I' & [= X Y]).
        apply (MK t' e' (H2 i') E' I'). cbn. unfold mp. rewrite <- X, <- Y. f_equal. now rewrite msym.
      + destruct closed as (_ & C). destruct (C _ _ _ _ (es_side E O)) as (t' & i' & e' & E' & D'). apply side_enode in D' as (I' & [= X Y]).
        apply (MK t' e' (H1 i') E' I'). cbn. unfold mp. rewrite <- X, <- Y. f_equal. now rewrite msym.
      + apply (MK (t / 4) e (In2 u s) E); cbn; [lia|reflexivity].
  Qed.
End Comb.
