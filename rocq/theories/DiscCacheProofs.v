From Verif Require Import Base DiscCacheModel.
Set Implicit Arguments.

Section P.
  Variable W : Type.
  Variable hash : nat -> nat.
  Notation sk := (sameKey hash).
  Notation fnd := (find hash).

  Lemma sk_refl a : sk a a = true.
  Proof. unfold sameKey. now rewrite !Nat.eqb_refl. Qed.
  Lemma sk_iff a b : sk a b = true <-> hash (id_addr a) = hash (id_addr b) /\ id_key a = id_key b.
  Proof. unfold sameKey. rewrite andb_true_iff, !Nat.eqb_eq. reflexivity. Qed.
  Lemma sk_sym a b : sk a b = sk b a.
  Proof. unfold sameKey. f_equal; apply Nat.eqb_sym. Qed.
  Lemma sk_eq a b c : sk a b = true -> sk c a = sk c b.
  Proof. intro H. apply sk_iff in H as (A & B). unfold sameKey. now rewrite A, B. Qed.
  Lemma alive_iff l o : alive l o = true <-> In o l.
  Proof.
    unfold alive. rewrite existsb_exists. split; [intros (x & I & E); apply Nat.eqb_eq in E; now subst|].
    intro I. exists o. split; [exact I|apply Nat.eqb_refl].
  Qed.
  Lemma fnd_In m i o : fnd m i = Some o -> exists k, In (k, o) m /\ sk k i = true.
  Proof.
    unfold DiscCacheModel.find. destruct (List.find _ m) as [[k o']|] eqn:E; [|discriminate]. intro H. injection H as <-.
    apply find_some in E as (I & S). exists k. auto.
  Qed.
  Lemma fnd_None m i : fnd m i = None -> forall k o, In (k, o) m -> sk k i = false.
  Proof.
    unfold DiscCacheModel.find. destruct (List.find _ m) as [[k o']|] eqn:E; [discriminate|]. intros _ k o I. exact (find_none _ _ E _ I).
  Qed.
  Lemma fnd_assign m i o j : fnd (assign hash m i o) j = if sk i j then (match fnd m j with Some _ => Some o | None => None end) else fnd m j.
  Proof.
    unfold DiscCacheModel.find, assign. induction m as [|[k x] m IH]; cbn [map List.find fst snd]; [now destruct (sk i j)|].
    destruct (sk k i) eqn:E; cbn [fst snd].
    - rewrite sk_sym in E. rewrite (sk_sym k j), (sk_eq _ _ j E), (sk_sym j i) || idtac.
      assert (Q : sk k j = sk i j). { rewrite (sk_sym k j), (sk_sym i j). symmetry. apply sk_eq. exact E. }
      rewrite ?Q. destruct (sk i j) eqn:Q2; [rewrite ?Q; reflexivity|]. rewrite ?Q. exact IH.
    - destruct (sk k j) eqn:Q.
      + destruct (sk i j) eqn:Q2; [|reflexivity]. exfalso. rewrite sk_sym in Q2. pose proof (sk_eq _ _ k Q2). congruence.
      + exact IH.
  Qed.
  Lemma fnd_insert m i o j : fnd (insert hash m i o) j =
    match fnd m j with Some x => Some x | None => if sk i j then Some o else None end.
  Proof.
    unfold insert. destruct (fnd m i) as [x|] eqn:E.
    - destruct (fnd m j) eqn:F; [reflexivity|]. destruct (sk i j) eqn:S; [|reflexivity]. exfalso.
      apply fnd_In in E as (k & I & Q). pose proof (fnd_None _ _ F _ _ I) as N. rewrite sk_sym in Q. pose proof (sk_eq _ _ j S) as X.
      assert (sk j k = sk i k). { rewrite (sk_sym j k), (sk_sym i k). symmetry. apply sk_eq. exact S. } rewrite sk_sym in N. congruence.
    - unfold DiscCacheModel.find. clear E. induction m as [|[k x] m IH]; cbn [app List.find fst snd].
      + destruct (sk i j); reflexivity.
      + destruct (sk k j); [reflexivity|exact IH].
  Qed.

  (** equal ids assemble equal forms *)
  Variable form : nat -> W.    (* form of an id content *)
  Definition sound (op : absOp W) : Prop := forall i, op_id op = Some i -> op_form op = form (id_key i).

  (** ---- sequential ---- *)
  Definition sinv (s : cstate W) : Prop :=
    (forall o, In o (cs_refs s) -> o < length (cs_heap s)) /\
    (forall k o, In (k, o) (cs_map s) -> nth_error (cs_heap s) o = Some (form (id_key k))).
  Lemma nth_error_snoc (l : list W) x : nth_error (l ++ [x]) (length l) = Some x.
  Proof. rewrite nth_error_app2, Nat.sub_diag by lia. reflexivity. Qed.
  Lemma nth_error_grow (l : list W) x o v : nth_error l o = Some v -> nth_error (l ++ [x]) o = Some v.
  Proof. intro H. rewrite nth_error_app1; [exact H|]. apply nth_error_Some. congruence. Qed.
  Lemma assign_In m i o k x : In (k, x) (assign hash m i o) -> exists y, In (k, y) m /\ (x = y \/ x = o /\ sk k i = true).
  Proof.
    unfold assign. intro I. apply in_map_iff in I as ([k' y] & E & I). cbn [fst] in E. destruct (sk k' i) eqn:S; injection E as <- <-; exists y; auto.
  Qed.
  Lemma insert_In m i o k x : In (k, x) (insert hash m i o) -> In (k, x) m \/ k = i /\ x = o.
  Proof. unfold insert. destruct (fnd m i); [auto|]. intro I. apply in_app_or in I as [I|[E|[]]]; [auto|]. injection E as <- <-. auto. Qed.

  Lemma get_ok s op : sinv s -> sound op ->
    exists s' o, getWeakForm hash s op = (s', Some o) /\ sinv s' /\
      nth_error (cs_heap s') o = Some (op_form op) /\ In o (cs_refs s') /\ incl (cs_refs s) (cs_refs s') /\
      (forall x v, nth_error (cs_heap s) x = Some v -> nth_error (cs_heap s') x = Some v) /\
      (forall i, op_id op = Some i -> fnd (cs_map s') i = Some o) /\
      (forall j x, fnd (cs_map s) j = Some x -> In x (cs_refs s) -> fnd (cs_map s') j = Some x) /\
      (forall i x, op_id op = Some i -> fnd (cs_map s) i = Some x -> In x (cs_refs s) -> o = x /\ cs_heap s' = cs_heap s).
  Proof.
    intros (I1 & I2) SO. unfold getWeakForm.
    assert (G1 : forall o, In o (length (cs_heap s) :: cs_refs s) -> o < length (cs_heap s ++ [op_form op])).
    { intros o [<-|I]; rewrite app_length; cbn; [lia|]. specialize (I1 _ I). lia. }
    destruct (op_id op) as [i|] eqn:EI.
    - destruct (fnd (cs_map s) i) as [o|] eqn:F.
      + destruct (alive (cs_refs s) o) eqn:A.
        * apply alive_iff in A. eexists _, o. split; [reflexivity|]. cbn [cs_heap cs_refs cs_map]. split.
          { split; [intros x [<-|X]; cbn; auto|exact I2]. }
          destruct (fnd_In _ _ F) as (k & Ik & Sk). split.
          { rewrite (I2 _ _ Ik). f_equal. rewrite (SO i EI). f_equal. now apply sk_iff in Sk as (_ & ->). }
          split; [now left|]. split; [now right|]. split; [auto|]. split; [intros j Ej; injection Ej as <-; exact F|]. split; [auto|].
          intros j x Ej Fx _. injection Ej as <-. split; [congruence|reflexivity].
        * assert (NA : ~ In o (cs_refs s)) by (intro X; apply alive_iff in X; congruence).
          eexists _, (length (cs_heap s)). split; [reflexivity|]. cbn [cs_heap cs_refs cs_map]. split.
          { split; [exact G1|]. intros k x Ix. apply assign_In in Ix as (y & Iy & [-> | (-> & Sk)]).
            - cbn [cs_heap]; apply nth_error_grow; now apply I2.
            - cbn [cs_heap]. rewrite nth_error_snoc. f_equal. rewrite (SO i EI). f_equal. symmetry. now apply sk_iff in Sk as (_ & ->). }
          split; [apply nth_error_snoc|]. split; [now left|]. split; [now right|]. split; [intros; now apply nth_error_grow|].
          split; [intros j Ej; injection Ej as <-; rewrite fnd_assign, sk_refl, F; reflexivity|]. split.
          { intros j x Fx Ix. rewrite fnd_assign. destruct (sk i j) eqn:S; [|exact Fx]. exfalso.
            assert (fnd (cs_map s) i = fnd (cs_map s) j); [|congruence].
            unfold DiscCacheModel.find. replace (List.find (fun e => sk (fst e) i) (cs_map s)) with (List.find (fun e => sk (fst e) j) (cs_map s)); [reflexivity|].
            clear -S. induction (cs_map s) as [|e m IH]; [reflexivity|]. cbn. rewrite (sk_eq _ _ (fst e) S). destruct (sk (fst e) j); [reflexivity|exact IH]. }
          intros j x Ej Fx Ix. injection Ej as <-. congruence.
      + rewrite fnd_insert, F, sk_refl.
        assert (A : alive (length (cs_heap s) :: cs_refs s) (length (cs_heap s)) = true) by (apply alive_iff; now left). rewrite A.
        eexists _, (length (cs_heap s)). split; [reflexivity|]. cbn [cs_heap cs_refs cs_map]. split.
        { split; [exact G1|]. intros k x Ix. apply insert_In in Ix as [Ix|(-> & ->)].
          - cbn [cs_heap]; apply nth_error_grow; now apply I2.
          - cbn [cs_heap]. rewrite nth_error_snoc. f_equal. now rewrite (SO i EI). }
        split; [apply nth_error_snoc|]. split; [now left|]. split; [now right|]. split; [intros; now apply nth_error_grow|].
        split; [intros j Ej; injection Ej as <-; rewrite fnd_insert, F, sk_refl; reflexivity|]. split.
        { intros j x Fx _. rewrite fnd_insert, Fx. reflexivity. }
        intros j x Ej Fx. injection Ej as <-. congruence.
    - eexists _, (length (cs_heap s)). split; [reflexivity|]. cbn [cs_heap cs_refs cs_map]. split.
      { split; [exact G1|]. intros k x Ix. cbn [cs_heap]; apply nth_error_grow; now apply I2. }
      split; [apply nth_error_snoc|]. split; [now left|]. split; [now right|]. split; [intros; now apply nth_error_grow|].
      split; [discriminate|]. split; [auto|discriminate].
  Qed.
  Definition soundEvent (e : event W) : Prop := match e with Request op => sound op | Drop _ _ => True end.
  Lemma removeOne_In l o x : In x (removeOne l o) -> In x l.
  Proof. induction l as [|a l IH]; cbn; [auto|]. destruct (a =? o); cbn; intuition. Qed.
  Lemma cstep_inv s e : sinv s -> soundEvent e -> sinv (cstep hash s e).
  Proof.
    intros H SE. destruct e as [op|o]; cbn.
    - destruct (@get_ok s op H SE) as (s' & r & -> & H' & _). exact H'.
    - destruct H as (A & B). split; [|exact B]. intros x Ix. cbn. apply A. eapply removeOne_In; eauto.
  Qed.
  Lemma history_inv s es s' : history hash s es s' -> sinv s -> Forall soundEvent es -> sinv s'.
  Proof. induction 1; intros H1 F; [exact H1|]. inversion F; subst. apply IHhistory; [|assumption]. now apply cstep_inv. Qed.
  Lemma sinv_new : sinv (cnew W).
  Proof. split; intros; contradiction. Qed.

  (** an object kept alive stays in the map *)
  Inductive keeping (o : nat) : cstate W -> list (event W) -> cstate W -> Prop :=
  | k_nil s : In o (cs_refs s) -> keeping o s [] s
  | k_cons s e es s' : In o (cs_refs s) -> keeping o (cstep hash s e) es s' -> keeping o s (e :: es) s'.
  Lemma keeping_find o s es s' i : keeping o s es s' -> sinv s -> Forall soundEvent es -> fnd (cs_map s) i = Some o ->
    fnd (cs_map s') i = Some o /\ In o (cs_refs s') /\ sinv s'.
  Proof.
    induction 1 as [s K|s e es s' K H IH]; intros SI F E; [auto|]. inversion F; subst. apply IH; [now apply cstep_inv|assumption|].
    destruct e as [op|x]; [|exact E]. cbn. destruct (@get_ok s op SI) as (s2 & r & -> & _ & _ & _ & _ & _ & _ & P & _); [assumption|]. cbn. now apply P.
  Qed.

  (** ---- concurrent ---- *)
  Definition pcOk (heap : list W) (p : pc W) : Prop :=
    match p with
    | Start op => sound op
    | Found op i | Expired op i | Missing op i => sound op /\ op_id op = Some i
    | Reassembled op i o | Assigned op i o | Assembled op i o | Inserted op i o =>
        sound op /\ op_id op = Some i /\ nth_error heap o = Some (op_form op)
    | Returned op r => forall o, r = Some o -> nth_error heap o = Some (op_form op)
    end.
  Definition pinv (s : pstate W) : Prop :=
    (forall k o, In (k, o) (p_map s) -> nth_error (p_heap s) o = Some (form (id_key k))) /\
    (forall p, In p (p_threads s) -> pcOk (p_heap s) p).
  Lemma pcOk_grow heap x p : pcOk heap p -> pcOk (heap ++ [x]) p.
  Proof. destruct p; cbn; try tauto; [intros (A & B & D); auto using nth_error_grow..|]. intros A o E. apply nth_error_grow. auto. Qed.
  Lemma found_form M heap i o op : (forall k o, In (k, o) M -> nth_error heap o = Some (form (id_key k))) ->
    sound op -> op_id op = Some i -> fnd M i = Some o -> nth_error heap o = Some (op_form op).
  Proof.
    intros H SO E F. apply fnd_In in F as (k & I & S). rewrite (H _ _ I), (SO i E). apply sk_iff in S as (_ & ->). reflexivity.
  Qed.
  Lemma pstep1_ok s p H R M p' : pinv s -> pcOk (p_heap s) p -> pstep1 hash s p = (H, R, M, p') ->
    (exists l, H = p_heap s ++ l) /\ (forall q, pcOk (p_heap s) q -> pcOk H q) /\ pcOk H p' /\
    (forall k o, In (k, o) M -> nth_error H o = Some (form (id_key k))).
  Proof.
    intros (I1 & I2) P E. unfold pstep1 in E.
    assert (N0 : exists l, p_heap s = p_heap s ++ l) by (exists []; now rewrite app_nil_r).
    assert (N1 : forall x, exists l, p_heap s ++ [x] = p_heap s ++ l) by eauto.
    destruct p as [op|op i|op i|op i o|op i o|op i|op i o|op i o|op r]; cbn in P.
    - destruct (op_id op) as [i|] eqn:EI.
      + destruct (fnd (p_map s) i); injection E as <- <- <- <-; (split; [exact N0|split; [auto|split; [cbn; auto|exact I1]]]).
      + injection E as <- <- <- <-. split; [apply N1|]. split; [intros; now apply pcOk_grow|]. split.
        * cbn. intros o Eo. injection Eo as <-. apply nth_error_snoc.
        * intros. apply nth_error_grow. auto.
    - destruct P as (P1 & P2). destruct (fnd (p_map s) i) as [o|] eqn:F; [destruct (alive (allRefs s) o)|]; injection E as <- <- <- <-;
        (split; [exact N0|split; [auto|split; [cbn; auto|exact I1]]]).
      intros x Ex. injection Ex as <-. eapply found_form; eauto.
    - destruct P as (P1 & P2). injection E as <- <- <- <-. split; [apply N1|]. split; [intros; now apply pcOk_grow|]. split.
      + cbn. split; [exact P1|]. split; [exact P2|]. apply nth_error_snoc.
      + intros. apply nth_error_grow. auto.
    - destruct P as (P1 & P2 & P3). injection E as <- <- <- <-. split; [exact N0|]. split; [auto|]. split; [cbn; auto|].
      intros k x Ix. apply assign_In in Ix as (y & Iy & [-> | (-> & Sk)]); [auto|]. rewrite P3, (P1 i P2). apply sk_iff in Sk as (_ & ->). reflexivity.
    - destruct P as (P1 & P2 & P3). unfold lockReturn in E.
      destruct (fnd (p_map s) i) as [x|] eqn:F; [destruct (alive (allRefs s) x)|]; injection E as <- <- <- <-;
        (split; [exact N0|split; [auto|split; [cbn; try discriminate|exact I1]]]).
      intros y Ey. injection Ey as <-. eapply found_form; eauto.
    - destruct P as (P1 & P2). injection E as <- <- <- <-. split; [apply N1|]. split; [intros; now apply pcOk_grow|]. split.
      + cbn. split; [exact P1|]. split; [exact P2|]. apply nth_error_snoc.
      + intros. apply nth_error_grow. auto.
    - destruct P as (P1 & P2 & P3). injection E as <- <- <- <-. split; [exact N0|]. split; [auto|]. split; [cbn; auto|].
      intros k x Ix. apply insert_In in Ix as [Ix|(-> & ->)]; [auto|]. rewrite P3, (P1 i P2). reflexivity.
    - destruct P as (P1 & P2 & P3). unfold lockReturn in E.
      destruct (fnd (p_map s) i) as [x|] eqn:F; [destruct (alive (allRefs s) x)|]; injection E as <- <- <- <-;
        (split; [exact N0|split; [auto|split; [cbn; try discriminate|exact I1]]]).
      intros y Ey. injection Ey as <-. eapply found_form; eauto.
    - injection E as <- <- <- <-. split; [exact N0|]. split; [auto|]. split; [cbn; auto|exact I1].
  Qed.
  Lemma psteps_inv s s' : psteps hash s s' -> pinv s -> pinv s'.
  Proof.
    induction 1 as [s|s s' t p H R M p' ths ST IH N E U|s s' o ST IH]; intro I; [exact I| |].
    - specialize (IH I). destruct (@pstep1_ok s' p H R M p' IH) as (_ & G & P' & M'); [apply IH; eapply nth_error_In; eauto|exact E|].
      split; [exact M'|]. cbn [p_heap p_threads]. intros q Iq. apply In_nth_error in Iq as (k & Ek). rewrite (upd_nth_error _ _ _ k U) in Ek.
      destruct (k =? t); [injection Ek as <-; exact P'|]. apply G. apply IH. eapply nth_error_In; eauto.
    - specialize (IH I). destruct IH as (A & B). split; assumption.
  Qed.
End P.
