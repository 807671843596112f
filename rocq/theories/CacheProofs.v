From Verif Require Import Base AsmModel DofListModel DofListSpec.
Set Implicit Arguments.

Section CacheP.
  Variables (Key V : Type) (keyEq : Key -> Key -> bool) (find_ : Key -> V).
  Hypothesis keyEq_ok : forall a b, keyEq a b = true <-> a = b.
  Local Notation cthread := (cthread Key).
  Local Notation cstate := (cstate Key V).
  Local Notation cact := (cact (V:=V) keyEq find_).

  Lemma cfind_some k m q : cfind keyEq k m = Some q -> In (k, q) m.
  Proof.
    unfold cfind. destruct (find _ m) as [[k' q']|] eqn:E; [|discriminate]. intros H. inversion H; subst. apply find_some in E.
    destruct E as [Hi He]. apply keyEq_ok in He. cbn in He. now subst.
  Qed.
  Lemma cfind_none k m : cfind keyEq k m = None -> ~ In k (map fst m).
  Proof.
    unfold cfind. destruct (find _ m) eqn:E; [discriminate|]. intros _ Hi. apply in_map_iff in Hi. destruct Hi as (x & <- & Hx).
    pose proof (find_none _ _ E x Hx) as N. cbn in N. assert (keyEq (fst x) (fst x) = true) by now apply keyEq_ok. congruence.
  Qed.

  Definition owned (th : cthread) : option nat :=
    match th with CBuilt _ p => Some p | CLost _ p _ => Some p | _ => None end.
  Definition thOk (s : cstate) (th : cthread) : Prop :=
    match th with
    | CStart _ | CMissed _ => True
    | CBuilt k p => nth_error (c_heap s) p = Some (Some (find_ k)) /\ ~ In p (map snd (c_map s))
    | CLost k p q => nth_error (c_heap s) p = Some (Some (find_ k)) /\ ~ In p (map snd (c_map s)) /\ In (k, q) (c_map s)
    | CDone k q => In (k, q) (c_map s)
    end.
  Definition cinv (s : cstate) : Prop :=
    NoDup (map fst (c_map s)) /\ NoDup (map snd (c_map s)) /\
    (forall k p, In (k, p) (c_map s) -> nth_error (c_heap s) p = Some (Some (find_ k))) /\
    (forall t th, nth_error (c_threads s) t = Some th -> thOk s th) /\
    (forall t t' th th' p, nth_error (c_threads s) t = Some th -> nth_error (c_threads s) t' = Some th' ->
       owned th = Some p -> owned th' = Some p -> t = t') /\
    (forall p v, nth_error (c_heap s) p = Some (Some v) -> In p (map snd (c_map s)) \/
       exists t th, nth_error (c_threads s) t = Some th /\ owned th = Some p).

  Lemma nth_app_last A (l : list A) x p : nth_error (l ++ [x]) p = if p =? length l then Some x else nth_error l p.
  Proof.
    destruct (Nat.eqb_spec p (length l)) as [->|Hne].
    - rewrite nth_error_app2, Nat.sub_diag by lia. reflexivity.
    - destruct (Nat.lt_ge_cases p (length l)); [now rewrite nth_error_app1|].
      rewrite nth_error_app2 by lia. replace (nth_error l p) with (@None A) by (symmetry; apply nth_error_None; lia).
      destruct (p - length l) as [|n] eqn:E; [lia|]. cbn. now destruct n.
  Qed.
  Lemma ninj A B (l : list (A * B)) : NoDup (map fst l) -> forall k a b, In (k, a) l -> In (k, b) l -> a = b.
  Proof.
    induction l as [|[k v] l IH]; intros N k' a b Ha Hb; [destruct Ha|]. cbn in N. inversion N as [|? ? Hn N']; subst.
    destruct Ha as [Ha|Ha], Hb as [Hb|Hb].
    - congruence.
    - inversion Ha; subst. exfalso. apply Hn. apply in_map_iff. exists (k', b). auto.
    - inversion Hb; subst. exfalso. apply Hn. apply in_map_iff. exists (k', a). auto.
    - eapply IH; eauto.
  Qed.

  Lemma cstep_inv s t s' : cinv s -> cstep keyEq find_ s t s' -> cinv s'.
  Proof.
    intros (N1 & N2 & HM & HT & HO & HL) (th & h & m & th' & ths & Et & Ea & Eu & ->).
    assert (NT : forall t', nth_error ths t' = if t' =? t then Some th' else nth_error (c_threads s) t') by (intros t'; apply (upd_nth_error _ _ _ t' Eu)).
    pose proof (HT t th Et) as Hth.
    destruct th as [k|k|k p|k p q|k q]; cbn [DofListModel.cact] in Ea.
    - (* find *)
      assert (E : h = c_heap s /\ m = c_map s /\ owned th' = None /\ thOk s th').
      { destruct (cfind keyEq k (c_map s)) as [q|] eqn:Ef; inversion Ea; subst; repeat split; try reflexivity. cbn. now apply cfind_some. }
      destruct E as (-> & -> & Eo & Ho).
      unfold cinv; cbn [c_heap c_map c_threads]. split; [exact N1|]. split; [exact N2|]. split; [exact HM|]. split; [|split].
      + intros t' th0 E0. rewrite NT in E0. destruct (t' =? t); [inversion E0; subst; destruct th0; exact Ho|].
        pose proof (HT _ _ E0) as X. destruct th0; exact X.
      + intros a b x y p Ex Ey Hx Hy. rewrite NT in Ex, Ey.
        destruct (Nat.eqb_spec a t) as [->|]; [inversion Ex; subst; congruence|].
        destruct (Nat.eqb_spec b t) as [->|]; [inversion Ey; subst; congruence|]. eapply HO; eauto.
      + intros p v Hp. destruct (HL p v Hp) as [?|(t0 & th0 & E0 & O0)]; [now left|]. right. exists t0, th0. split; [|exact O0].
        rewrite NT. destruct (Nat.eqb_spec t0 t) as [->|]; [|exact E0]. rewrite Et in E0. inversion E0; subst. discriminate.
    - (* allocate *)
      inversion Ea; subst h m th'; clear Ea.
      assert (Hold : forall p x, nth_error (c_heap s) p = Some x -> nth_error (c_heap s ++ [Some (find_ k)]) p = Some x).
      { intros p x Hp. rewrite nth_app_last. destruct (Nat.eqb_spec p (length (c_heap s))) as [->|]; [|exact Hp].
        exfalso. assert (length (c_heap s) < length (c_heap s)) by (apply nth_error_Some; congruence). lia. }
      assert (Hfresh : ~ In (length (c_heap s)) (map snd (c_map s))).
      { intros Hi. apply in_map_iff in Hi. destruct Hi as ([k' p] & Ep & Hin). cbn in Ep. subst p. apply HM in Hin.
        assert (length (c_heap s) < length (c_heap s)) by (apply nth_error_Some; congruence). lia. }
      assert (Hown : forall t0 th0, nth_error (c_threads s) t0 = Some th0 -> owned th0 <> Some (length (c_heap s))).
      { intros t0 th0 E0 O0. pose proof (HT _ _ E0) as X. destruct th0; try discriminate; cbn in O0, X; inversion O0; subst;
        assert (length (c_heap s) < length (c_heap s)) by (apply nth_error_Some; destruct X as [-> _]; discriminate); lia. }
      unfold cinv; cbn [c_heap c_map c_threads]. split; [exact N1|]. split; [exact N2|]. split; [intros; apply Hold; now apply HM|]. split; [|split].
      + intros t' th0 E0. rewrite NT in E0. destruct (t' =? t).
        * inversion E0; subst. cbn. split; [|exact Hfresh]. now rewrite nth_app_last, Nat.eqb_refl.
        * pose proof (HT _ _ E0) as X. destruct th0; cbn in *; try exact X; intuition.
      + intros a b x y p Ex Ey Hx Hy. rewrite NT in Ex, Ey.
        destruct (Nat.eqb_spec a t) as [->|], (Nat.eqb_spec b t) as [->|].
        * reflexivity.
        * inversion Ex; subst. cbn in Hx. inversion Hx; subst. exfalso. eapply Hown; eauto.
        * inversion Ey; subst. cbn in Hy. inversion Hy; subst. exfalso. eapply Hown; eauto.
        * eapply HO; eauto.
      + intros p v Hp. rewrite nth_app_last in Hp. destruct (Nat.eqb_spec p (length (c_heap s))) as [->|].
        * right. exists t, (CBuilt k (length (c_heap s))). rewrite NT, Nat.eqb_refl. auto.
        * destruct (HL p v Hp) as [?|(t0 & th0 & E0 & O0)]; [now left|]. right. exists t0, th0. split; [|exact O0].
          rewrite NT. destruct (Nat.eqb_spec t0 t) as [->|]; [|exact E0]. rewrite Et in E0. inversion E0; subst. discriminate.
    - (* insert *)
      cbn in Hth. destruct Hth as [Hp1 Hp2].
      destruct (cfind keyEq k (c_map s)) as [q|] eqn:Ef; inversion Ea; subst h m th'; clear Ea.
      + apply cfind_some in Ef.
        unfold cinv; cbn [c_heap c_map c_threads]. split; [exact N1|]. split; [exact N2|]. split; [exact HM|]. split; [|split].
        * intros t' th0 E0. rewrite NT in E0. destruct (t' =? t); [inversion E0; subst; cbn; auto|].
          pose proof (HT _ _ E0) as X. destruct th0; exact X.
        * intros a b x y p0 Ex Ey Hx Hy. rewrite NT in Ex, Ey.
          destruct (Nat.eqb_spec a t) as [->|], (Nat.eqb_spec b t) as [->|].
          -- reflexivity.
          -- inversion Ex; subst. cbn in Hx. eapply (HO t b); eauto.
          -- inversion Ey; subst. cbn in Hy. eapply (HO a t); eauto.
          -- eapply HO; eauto.
        * intros p0 v Hp. destruct (HL p0 v Hp) as [?|(t0 & th0 & E0 & O0)]; [now left|]. right.
          destruct (Nat.eq_dec t0 t) as [->|Hne].
          -- rewrite Et in E0. inversion E0; subst. exists t, (CLost k p q). rewrite NT, Nat.eqb_refl. auto.
          -- exists t0, th0. rewrite NT. destruct (Nat.eqb_spec t0 t); [lia|]. auto.
      + apply cfind_none in Ef.
        unfold cinv; cbn [c_heap c_map c_threads map fst snd]. split; [constructor; assumption|]. split; [constructor; assumption|].
        split; [intros k' p' [E|Hin]; [inversion E; subst; exact Hp1|now apply HM]|]. split; [|split].
        * intros t' th0 E0. rewrite NT in E0. destruct (Nat.eqb_spec t' t) as [->|Hne]; [inversion E0; subst; cbn; now left|].
          assert (Hd : forall p', owned th0 = Some p' -> p <> p').
          { intros p' O0 <-. apply Hne. eapply (HO t' t); eauto. }
          pose proof (HT _ _ E0) as X. destruct th0; cbn in *; try exact X; intuition (try congruence); eapply Hd; eauto.
        * intros a b x y p0 Ex Ey Hx Hy. rewrite NT in Ex, Ey.
          destruct (Nat.eqb_spec a t) as [->|], (Nat.eqb_spec b t) as [->|]; try (inversion Ex; subst; discriminate); try (inversion Ey; subst; discriminate).
          eapply HO; eauto.
        * intros p0 v Hp. destruct (HL p0 v Hp) as [?|(t0 & th0 & E0 & O0)]; [left; now right|].
          destruct (Nat.eq_dec t0 t) as [->|Hne].
          -- rewrite Et in E0. inversion E0; subst. cbn in O0. inversion O0; subst. left. now left.
          -- right. exists t0, th0. rewrite NT. destruct (Nat.eqb_spec t0 t); [lia|]. auto.
    - (* delete *)
      cbn in Hth. destruct Hth as (Hp1 & Hp2 & Hq).
      destruct (upd (c_heap s) p None) as [h'|] eqn:Eh; [|discriminate]. inversion Ea; subst h m th'; clear Ea.
      assert (NH : forall p', nth_error h' p' = if p' =? p then Some None else nth_error (c_heap s) p') by (intros p'; apply (upd_nth_error _ _ _ p' Eh)).
      unfold cinv; cbn [c_heap c_map c_threads]. split; [exact N1|]. split; [exact N2|].
      split; [|split; [|split]].
      + intros k' p' Hin. rewrite NH. destruct (Nat.eqb_spec p' p) as [->|]; [|now apply HM]. exfalso. apply Hp2. apply in_map_iff. exists (k', p). auto.
      + intros t' th0 E0. rewrite NT in E0. destruct (Nat.eqb_spec t' t) as [->|Hne]; [inversion E0; subst; exact Hq|].
        assert (Hd : forall p', owned th0 = Some p' -> p' <> p).
        { intros p' O0 ->. apply Hne. eapply (HO t' t); eauto. }
        pose proof (HT _ _ E0) as X. destruct th0 as [?|?|k0 p0|k0 p0 q0|?]; cbn in *; try exact X.
        * rewrite NH. specialize (Hd p0 eq_refl). destruct (Nat.eqb_spec p0 p); [contradiction|exact X].
        * rewrite NH. specialize (Hd p0 eq_refl). destruct (Nat.eqb_spec p0 p); [contradiction|exact X].
      + intros a b x y p0 Ex Ey Hx Hy. rewrite NT in Ex, Ey.
        destruct (Nat.eqb_spec a t) as [->|], (Nat.eqb_spec b t) as [->|]; try (inversion Ex; subst; discriminate); try (inversion Ey; subst; discriminate).
        eapply HO; eauto.
      + intros p0 v Hp. rewrite NH in Hp. destruct (Nat.eqb_spec p0 p) as [->|Hnp]; [discriminate|].
        destruct (HL p0 v Hp) as [?|(t0 & th0 & E0 & O0)]; [now left|]. right.
        destruct (Nat.eq_dec t0 t) as [->|Hne].
        * rewrite Et in E0. inversion E0; subst. cbn in O0. congruence.
        * exists t0, th0. rewrite NT. destruct (Nat.eqb_spec t0 t); [lia|]. auto.
    - discriminate.
  Qed.

  Lemma cinit_inv ks : cinv (cinit V ks).
  Proof.
    unfold cinv, cinit; cbn. split; [constructor|]. split; [constructor|]. split; [intros k p []|].
    assert (S : forall t th, nth_error (map (@CStart Key) ks) t = Some th -> exists k, th = CStart k).
    { intros t th E. apply nth_error_In in E. apply in_map_iff in E. destruct E as (k & <- & _). eauto. }
    split; [|split].
    - intros t th E. destruct (S t th E) as (k & ->). exact I.
    - intros t t' th th' p E _ O _. destruct (S t th E) as (k & ->). discriminate.
    - intros p v H. destruct p; discriminate.
  Qed.
  Lemma cruns_inv s s' : cinv s -> cruns keyEq find_ s s' -> cinv s'.
  Proof. intros H R. induction R; [exact H|]. eapply cstep_inv; eauto. Qed.

  (** the request a thread serves never changes *)
  Lemma cruns_req s s' : cruns keyEq find_ s s' -> map reqOf (c_threads s') = map reqOf (c_threads s).
  Proof.
    intros R. induction R as [|s' s'' t R IH (th & h & m & th' & ths & Et & Ea & Eu & ->)]; [reflexivity|]. rewrite <- IH. cbn [c_threads].
    assert (E : reqOf th' = reqOf th).
    { destruct th; cbn in Ea; repeat match type of Ea with context [match ?x with _ => _ end] => destruct x end; inversion Ea; reflexivity. }
    clear -E Et Eu. revert t ths Et Eu. induction (c_threads s') as [|a l IH]; intros [|t] ths Et Eu; cbn in *; try discriminate.
    - inversion Et; inversion Eu; subst. cbn. congruence.
    - destruct (upd l t th') eqn:U; [|discriminate]. inversion Eu; subst. cbn. f_equal. eapply IH; eauto.
  Qed.
  Lemma cprogress s t th : cinv s -> nth_error (c_threads s) t = Some th -> (exists k q, th = CDone k q) \/ exists s', cstep keyEq find_ s t s'.
  Proof.
    intros HI Et. assert (U : forall x, exists l, upd (c_threads s) t x = Some l) by (intros x; apply upd_Some, nth_error_Some; congruence).
    assert (G : forall h m th', cact s th = Some (h, m, th') -> exists s', cstep keyEq find_ s t s').
    { intros h m th' Ea. destruct (U th') as (l & El). exists (CState h m l). exists th, h, m, th', l. auto. }
    destruct HI as (_ & _ & _ & HT & _). specialize (HT t th Et).
    destruct th as [k|k|k p|k p q|k q]; [right|right|right|right|left; eauto]; cbn in G, HT.
    - destruct (cfind keyEq k (c_map s)); eapply G; reflexivity.
    - eapply G; reflexivity.
    - destruct (cfind keyEq k (c_map s)); eapply G; reflexivity.
    - destruct (@upd_Some _ (c_heap s) p None) as (h & Eh). { apply nth_error_Some. destruct HT as [-> _]. discriminate. }
      rewrite Eh in G. eapply G; reflexivity.
  Qed.

  Definition cweight (th : cthread) : nat := match th with CStart _ => 4 | CMissed _ => 3 | CBuilt _ _ => 2 | CLost _ _ _ => 1 | CDone _ _ => 0 end.
  Definition cmeasure (s : cstate) : nat := list_sum (map cweight (c_threads s)).
  Lemma cstep_measure s t s' : cstep keyEq find_ s t s' -> cmeasure s' < cmeasure s.
  Proof.
    intros (th & h & m & th' & ths & Et & Ea & Eu & ->). unfold cmeasure. cbn [c_threads].
    assert (E : cweight th' < cweight th).
    { destruct th; cbn in Ea; repeat match type of Ea with context [match ?x with _ => _ end] => destruct x end; inversion Ea; cbn; lia. }
    clear -E Et Eu. revert t ths Et Eu. induction (c_threads s) as [|a l IH]; intros [|t] ths Et Eu; cbn in *; try discriminate.
    - inversion Et; inversion Eu; subst. cbn. unfold list_sum. lia.
    - destruct (upd l t th') eqn:U; [|discriminate]. inversion Eu; subst. cbn. specialize (IH _ _ Et U). unfold list_sum in *. lia.
  Qed.

  Theorem cache_transparent ks : cacheTransparent keyEq find_ ks.
  Proof.
    unfold cacheTransparent. cbv zeta. split.
    - intros s s' t _ H. exact (cstep_measure H).
    - intros s R. assert (I := cruns_inv (cinit_inv ks) R). split; [|split].
      + intros t th Et. split; [|split].
        * pose proof (cruns_req R) as E. apply (f_equal (fun l => nth_error l t)) in E. rewrite nth_error_map, Et in E. cbn [option_map] in E.
          rewrite E. cbn [cinit c_threads]. rewrite map_map. cbn [reqOf]. now rewrite map_id.
        * exact (cprogress t I Et).
        * intros k q ->. destruct I as (_ & _ & HM & HT & _). apply HM. exact (HT _ _ Et).
      + intros t t' k k' q q' E1 E2. destruct I as (N1 & N2 & HM & HT & _). pose proof (HT _ _ E1) as H1. pose proof (HT _ _ E2) as H2. cbn in H1, H2.
        split.
        * intros <-. eapply ninj; eauto.
        * intros <-. clear -N2 H1 H2. induction (c_map s) as [|[a b] l IH]; [destruct H1|]. cbn in N2. inversion N2 as [|? ? Hn N]; subst.
          destruct H1 as [H1|H1], H2 as [H2|H2]; [congruence| | |auto].
          -- inversion H1; subst. exfalso. apply Hn. apply in_map_iff. exists (k', q). auto.
          -- inversion H2; subst. exfalso. apply Hn. apply in_map_iff. exists (k, q). auto.
      + intros D p v Hp. destruct I as (_ & _ & _ & _ & _ & HL). destruct (HL p v Hp) as [H|(t & th & Et & Ho)]; [exact H|].
        destruct (D t th Et) as (k & q & ->). discriminate.
  Qed.
End CacheP.
