From Verif Require Import Base AsmModel AsmSpec.
Set Implicit Arguments.

Section Par.
  Variable K : star_ring.
  Add Ring Kr : (sr_ring K).
  Local Notation instr := (instr K).
  Local Notation pstate := (pstate K).
  Local Notation mat := (mat K).

  (** program shapes *)
  Inductive okOut (R C : nat) : list instr -> Prop :=
  | OO_nil : okOut R C []
  | OO_lock p : okIn R C p -> okOut R C (ILock :: p)
  with okIn (R C : nat) : list instr -> Prop :=
  | OI_unlock p : okOut R C p -> okIn R C (IUnlock :: p)
  | OI_rw r c v p : r < R -> c < C -> okIn R C p -> okIn R C (IRead r c :: IWrite r c v :: p).
  Definition okMid R C (m : mat) (p : list instr) (reg : K) : Prop :=
    exists r c v q, p = IWrite r c v :: q /\ r < R /\ c < C /\ reg = m_at m r c /\ okIn R C q.

  (** what a program will still add to entry (r,c) *)
  Definition pend (r c : nat) (p : list instr) : K :=
    bsum p (fun i => match i with IWrite r' c' v => if (r =? r') && (c =? c') then v else zero | _ => zero end).

  Definition inv (R C : nat) (tot : nat -> nat -> K) (s : pstate) : Prop :=
    m_rows (ps_mem s) = R /\ m_cols (ps_mem s) = C /\
    (forall t p reg, nth_error (ps_threads s) t = Some (p, reg) ->
       if match ps_mutex s with Some o => o =? t | None => false end
       then okIn R C p \/ okMid R C (ps_mem s) p reg else okOut R C p) /\
    (forall o, ps_mutex s = Some o -> o < length (ps_threads s)) /\
    (forall r c, add (m_at (ps_mem s) r c) (bsum (ps_threads s) (fun th : list instr * K => pend r c (fst th))) = tot r c).

  Lemma bsum_upd A (l l' : list A) i (x : A) (y : A) (f : A -> K) :
    nth_error l i = Some x -> upd l i y = Some l' -> add (bsum l' f) (f x) = add (bsum l f) (f y).
  Proof.
    revert i l'. induction l as [|a l IH]; intros [|i] l' Hn Hu; cbn [nth_error upd] in *; try discriminate.
    - inversion Hn; subst. inversion Hu; subst. rewrite !bsum_cons. ring.
    - destruct (upd l i y) as [t|] eqn:E; [|discriminate]. inversion Hu; subst. rewrite !bsum_cons.
      specialize (IH i t Hn E). transitivity (add (f a) (add (bsum t f) (f x))); [ring|]. rewrite IH. ring.
  Qed.

  Lemma tot_upd (l l' : list (list instr * K)) t p q reg reg' r c tot (m d : K) :
    nth_error l t = Some (p, reg) -> upd l t (q, reg') = Some l' ->
    pend r c p = add d (pend r c q) ->
    add m (bsum l (fun th : list instr * K => pend r c (fst th))) = tot ->
    add (add m d) (bsum l' (fun th : list instr * K => pend r c (fst th))) = tot.
  Proof.
    intros Hn Hu Hp Ht. pose proof (@bsum_upd _ l l' t _ _ (fun th : list instr * K => pend r c (fst th)) Hn Hu) as B. cbn [fst] in B. rewrite Hp in B.
    rewrite <- Ht.
    assert (E : bsum l (fun th : list instr * K => pend r c (fst th)) = add (bsum l' (fun th : list instr * K => pend r c (fst th))) d).
    { transitivity (sub (add (bsum l (fun th : list instr * K => pend r c (fst th))) (pend r c q)) (pend r c q)); [ring|].
      rewrite <- B. ring. }
    rewrite E. ring.
  Qed.

  Lemma nth_upd A (l l' : list A) i j x : upd l i x = Some l' -> nth_error l' j = if j =? i then Some x else nth_error l j.
  Proof. apply upd_nth_error. Qed.

  Lemma inBounds_true R C (m : mat) r c : m_rows m = R -> m_cols m = C -> r < R -> c < C -> inBounds m r c = true.
  Proof. intros <- <- H1 H2. unfold inBounds. apply andb_true_iff. split; now apply Nat.ltb_lt. Qed.

  Lemma pend_cons r c i p : pend r c (i :: p) =
    add (match i with IWrite r' c' v => if (r =? r') && (c =? c') then v else zero | _ => zero end) (pend r c p).
  Proof. reflexivity. Qed.

  Lemma inv_noFault R C tot s t : inv R C tot s -> tstep s t <> Fault.
  Proof.
    intros (HR & HC & Hth & Ho & Htot). unfold tstep.
    destruct (nth_error (ps_threads s) t) as [[p reg]|] eqn:E; [|discriminate].
    destruct p as [|i p]; [discriminate|].
    specialize (Hth t _ _ E).
    assert (U : forall x, exists l', upd (ps_threads s) t x = Some l').
    { intros x. apply upd_Some. apply nth_error_Some. rewrite E. discriminate. }
    destruct (ps_mutex s) as [o|] eqn:Em; [destruct (Nat.eqb_spec o t) as [->|Hne]|].
    - destruct Hth as [H|(r & c & v & q & Ep & Hr & Hc & Hreg & Hq)].
      + inversion H; subst; cbn.
        * destruct (U (p, reg)) as (l' & ->). discriminate.
        * rewrite (@inBounds_true (m_rows (ps_mem s)) (m_cols (ps_mem s))) by auto. destruct (U (IWrite r c v :: p0, m_at (ps_mem s) r c)) as (l' & ->). discriminate.
      + inversion Ep; subst. rewrite (@inBounds_true (m_rows (ps_mem s)) (m_cols (ps_mem s))) by auto.
        destruct (U (q, m_at (ps_mem s) r c)) as (l' & ->). discriminate.
    - inversion Hth; subst; cbn. discriminate.
    - inversion Hth; subst; cbn. destruct (U (p, reg)) as (l' & ->). discriminate.
  Qed.

  Lemma inv_step R C tot s t s' : inv R C tot s -> tstep s t = Next s' -> inv R C tot s'.
  Proof.
    intros (HR & HC & Hth & Ho & Htot) Hs. unfold tstep in Hs.
    destruct (nth_error (ps_threads s) t) as [[p reg]|] eqn:E; [|discriminate].
    destruct p as [|i p]; [discriminate|].
    pose proof (Hth t _ _ E) as Ht.
    assert (Hlt : t < length (ps_threads s)) by (apply nth_error_Some; rewrite E; discriminate).
    destruct (ps_mutex s) as [o|] eqn:Em; [destruct (Nat.eqb_spec o t) as [->|Hne]|].
    - destruct Ht as [H|(r & c & v & q & Ep & Hr & Hc & Hreg & Hq)].
      + inversion H; subst i.
        * (* unlock *)
          subst. try rewrite Nat.eqb_refl in Hs. destruct (upd (ps_threads s) t (p, reg)) as [l'|] eqn:U; [|discriminate].
          inversion Hs; subst s'; clear Hs. unfold inv. cbn [ps_mutex ps_mem ps_threads].
          split; [reflexivity|]. split; [reflexivity|]. split; [|split].
          -- intros t' p' reg' E'. rewrite (nth_upd _ _ t' _ U) in E'. destruct (Nat.eqb_spec t' t) as [->|Hn].
             ++ inversion E'; subst. assumption.
             ++ specialize (Hth t' _ _ E'). destruct (Nat.eqb_spec t t'); [lia|exact Hth].
          -- intros o Ho'. discriminate.
          -- intros r c. rewrite <- (Htot r c).
             transitivity (add (add (m_at (ps_mem s) r c) zero) (bsum l' (fun th : list instr * K => pend r c (fst th)))); [ring|].
             eapply tot_upd; [exact E|exact U|rewrite pend_cons; reflexivity|reflexivity].
        * (* read *)
          subst p. rewrite (@inBounds_true R C) in Hs by auto.
          destruct (upd (ps_threads s) t (IWrite r c v :: p0, m_at (ps_mem s) r c)) as [l'|] eqn:U; [|discriminate].
          inversion Hs; subst s'; clear Hs. unfold inv. cbn [ps_mutex ps_mem ps_threads].
          split; [exact HR|]. split; [exact HC|]. split; [|split].
          -- intros t' p' reg' E'. rewrite (nth_upd _ _ t' _ U) in E'. destruct (Nat.eqb_spec t' t) as [->|Hn].
             ++ inversion E'; subst p' reg'. rewrite Nat.eqb_refl. right. exists r, c, v, p0. auto.
             ++ specialize (Hth t' _ _ E'). destruct (Nat.eqb_spec t t'); [lia|exact Hth].
          -- intros o Ho'. inversion Ho'; subst o. rewrite (upd_length _ _ _ U). exact Hlt.
          -- intros r' c'. rewrite <- (Htot r' c').
             transitivity (add (add (m_at (ps_mem s) r' c') zero) (bsum l' (fun th : list instr * K => pend r' c' (fst th)))); [ring|].
             eapply tot_upd; [exact E|exact U|rewrite (pend_cons _ _ (IRead _ _)); reflexivity|reflexivity].
      + (* write *)
        inversion Ep; subst i p. rewrite (@inBounds_true R C) in Hs by auto.
        destruct (upd (ps_threads s) t (q, reg)) as [l'|] eqn:U; [|discriminate].
        inversion Hs; subst s'; clear Hs. unfold inv. cbn [ps_mutex ps_mem ps_threads].
        split; [exact HR|]. split; [exact HC|]. split; [|split].
        * intros t' p' reg' E'. rewrite (nth_upd _ _ t' _ U) in E'. destruct (Nat.eqb_spec t' t) as [->|Hn].
          -- inversion E'; subst p' reg'. rewrite Nat.eqb_refl. left. exact Hq.
          -- specialize (Hth t' _ _ E'). destruct (Nat.eqb_spec t t'); [lia|exact Hth].
        * intros o Ho'. inversion Ho'; subst o. rewrite (upd_length _ _ _ U). exact Hlt.
        * intros r' c'. rewrite <- (Htot r' c'). cbn [setAt m_at].
          transitivity (add (add (m_at (ps_mem s) r' c') (if (r' =? r) && (c' =? c) then v else zero)) (bsum l' (fun th : list instr * K => pend r' c' (fst th)))).
          { f_equal. destruct (Nat.eqb_spec r' r) as [->|]; [destruct (Nat.eqb_spec c' c) as [->|]|]; cbn [andb]; try ring.
            rewrite Hreg. reflexivity. }
          eapply tot_upd; [exact E|exact U|rewrite pend_cons; reflexivity|reflexivity].
    - inversion Ht; subst i. discriminate.
    - inversion Ht; subst i. destruct (upd (ps_threads s) t (p, reg)) as [l'|] eqn:U; [|discriminate].
      inversion Hs; subst s'; clear Hs. unfold inv. cbn [ps_mutex ps_mem ps_threads].
      split; [exact HR|]. split; [exact HC|]. split; [|split].
      + intros t' p' reg' E'. rewrite (nth_upd _ _ t' _ U) in E'. destruct (Nat.eqb_spec t' t) as [->|Hn].
        * inversion E'; subst p' reg'. rewrite Nat.eqb_refl. left. assumption.
        * specialize (Hth t' _ _ E'). destruct (Nat.eqb_spec t t'); [lia|exact Hth].
      + intros o Ho'. inversion Ho'; subst o. rewrite (upd_length _ _ _ U). exact Hlt.
      + intros r c. rewrite <- (Htot r c).
        transitivity (add (add (m_at (ps_mem s) r c) zero) (bsum l' (fun th : list instr * K => pend r c (fst th)))); [ring|].
        eapply tot_upd; [exact E|exact U|rewrite pend_cons; reflexivity|reflexivity].
  Qed.

  Lemma inv_progress R C tot s : inv R C tot s -> finished s \/ exists t s', tstep s t = Next s'.
  Proof.
    intros HI. pose proof HI as (HR & HC & Hth & Ho & Htot).
    assert (NB : forall t i p reg, nth_error (ps_threads s) t = Some (i :: p, reg) ->
       (match i with ILock => ps_mutex s = None | _ => True end) -> exists s', tstep s t = Next s').
    { intros t i p reg E Hl. pose proof (@inv_noFault R C tot s t HI) as NF. revert NF. unfold tstep. rewrite E.
      destruct i.
      - rewrite Hl. destruct (upd _ _ _); [eauto|congruence].
      - destruct (ps_mutex s) as [o|]; [|congruence]. destruct (o =? t); [|congruence]. destruct (upd _ _ _); [eauto|congruence].
      - destruct (inBounds _ _ _); [|congruence]. destruct (upd _ _ _); [eauto|congruence].
      - destruct (inBounds _ _ _); [|congruence]. destruct (upd _ _ _); [eauto|congruence]. }
    destruct (ps_mutex s) as [o|] eqn:Em.
    - right. specialize (Ho o eq_refl). destruct (nth_error (ps_threads s) o) as [[p reg]|] eqn:E; [|apply nth_error_None in E; lia].
      pose proof (Hth o _ _ E) as H. rewrite Nat.eqb_refl in H.
      assert (exists i p', p = i :: p' /\ match i with ILock => False | _ => True end) as (i & p' & -> & Hi).
      { destruct H as [H|(r & c & v & q & -> & _)]; [inversion H; subst; do 2 eexists; split; reflexivity || exact I|].
        do 2 eexists. split; [reflexivity|exact I]. }
      destruct (NB o i p' reg E) as (s' & Hs'); [destruct i; tauto|]. eauto.
    - destruct (find (fun th => match fst th with [] => false | _ => true end) (ps_threads s)) as [[p reg]|] eqn:F.
      + right. apply find_some in F. destruct F as [Hin Hp]. apply In_nth_error in Hin. destruct Hin as [t E].
        destruct p as [|i p]; [discriminate|]. destruct (NB t i p reg E) as (s' & Hs'); [now destruct i|]. eauto.
      + left. intros t p reg E. apply nth_error_In in E. pose proof (find_none _ _ F _ E) as N. cbn in N. destruct p; [reflexivity|discriminate].
  Qed.

  Definition remaining (s : pstate) : nat := list_sum (map (fun th => length (fst th)) (ps_threads s)).
  Lemma list_sum_upd (l l' : list (list instr * K)) t x y : nth_error l t = Some x -> upd l t y = Some l' ->
    list_sum (map (fun th => length (fst th)) l') + length (fst x) = list_sum (map (fun th => length (fst th)) l) + length (fst y).
  Proof.
    revert t l'. induction l as [|a l IH]; intros [|t] l' Hn Hu; cbn in *; try discriminate.
    - inversion Hn; subst. inversion Hu; subst. cbn. unfold list_sum. lia.
    - destruct (upd l t y) eqn:E; [|discriminate]. inversion Hu; subst. specialize (IH _ _ Hn E). cbn. unfold list_sum in *. lia.
  Qed.
  Lemma step_decreases s t s' : tstep s t = Next s' -> remaining s = S (remaining s').
  Proof.
    unfold tstep. destruct (nth_error (ps_threads s) t) as [[p reg]|] eqn:E; [|discriminate].
    destruct p as [|i p]; [discriminate|].
    assert (G : forall mtx mem reg', match upd (ps_threads s) t (p, reg') with Some th => Next (PState mtx mem th) | None => Fault end = Next s' ->
       remaining s = S (remaining s')).
    { intros mtx mem reg' H. destruct (upd (ps_threads s) t (p, reg')) as [l'|] eqn:U; [|discriminate]. inversion H; subst.
      unfold remaining. cbn [ps_threads]. pose proof (@list_sum_upd _ _ _ _ _ E U) as Q. cbn [fst length] in Q. lia. }
    destruct i.
    - destruct (ps_mutex s); [discriminate|]. apply G.
    - destruct (ps_mutex s) as [o|]; [|discriminate]. destruct (o =? t); [|discriminate]. apply G.
    - destruct (inBounds _ _ _); [|discriminate]. apply G.
    - destruct (inBounds _ _ _); [|discriminate]. apply G.
  Qed.
  Lemma runs_inv R C tot s0 n s : inv R C tot s0 -> runs s0 n s -> inv R C tot s /\ n + remaining s = remaining s0.
  Proof.
    intros H0 Hr. induction Hr as [|s n s' s'' t Hr IH Hs]; [auto|]. destruct (IH H0) as [H1 H2].
    split; [eapply inv_step; eauto|]. apply step_decreases in Hs. lia.
  Qed.
  Lemma finished_pend (s : pstate) r c : finished s -> bsum (ps_threads s) (fun th : list instr * K => pend r c (fst th)) = zero.
  Proof.
    intros H. apply bsum_zero. intros [p reg] Hin. apply In_nth_error in Hin. destruct Hin as [t E]. rewrite (H t p reg E). reflexivity.
  Qed.

  Theorem inv_computes R C f s0 : inv R C f s0 -> alwaysComputes s0 R C f.
  Proof.
    intros H0. split.
    - exists (remaining s0). intros n s Hr. destruct (runs_inv H0 Hr). lia.
    - intros n s Hr. destruct (runs_inv H0 Hr) as [HI _]. split; [intros t; eapply inv_noFault; eauto|].
      split; [eapply inv_progress; eauto|]. intros Hf. destruct HI as (HR & HC & _ & _ & Ht).
      split; [exact HR|]. split; [exact HC|]. intros r c _ _. rewrite <- (Ht r c), finished_pend by exact Hf. ring.
  Qed.

  (** starting states *)
  Lemma okOut_app R C p q : (okOut R C p -> okOut R C q -> okOut R C (p ++ q)).
  Proof.
    revert p. fix F 2. intros p Hp Hq. destruct Hp as [|p Hp]; [exact Hq|]. cbn [app]. constructor.
    revert p Hp. fix G 2. intros p Hp. destruct Hp as [p Hp|r c v p Hr Hc Hp]; cbn [app].
    - constructor. apply F; assumption.
    - constructor; [assumption|assumption|]. apply G. exact Hp.
  Qed.
  Definition sumUps (us : list (nat * nat * K)) (r c : nat) : K :=
    bsum us (fun u => let '(r', c', v) := u in if (r =? r') && (c =? c') then v else zero).
  Lemma critical_ok R C us : (forall r c v, In (r, c, v) us -> r < R /\ c < C) -> okOut R C (critical us).
  Proof.
    intros H. unfold critical. constructor. induction us as [|[[r c] v] us IH]; cbn [flat_map app].
    - constructor. constructor.
    - constructor; [apply (H r c v); now left|apply (H r c v); now left|]. apply IH. intros. apply (H r0 c0 v0). now right.
  Qed.
  Lemma pend_app r c p q : pend r c (p ++ q) = add (pend r c p) (pend r c q).
  Proof. apply bsum_app. Qed.
  Lemma critical_pend us r c : pend r c (critical us) = sumUps us r c.
  Proof.
    unfold critical. rewrite pend_cons, pend_app. replace (pend r c [IUnlock]) with (zero : K).
    2:{ rewrite pend_cons. unfold pend; rewrite bsum_nil. ring. }
    transitivity (pend r c (flat_map (fun u : nat * nat * K => let '(r0, c0, v) := u in [IRead r0 c0; IWrite r0 c0 v]) us)); [ring|].
    induction us as [|[[r' c'] v] us IH]; [reflexivity|]. cbn [flat_map]. rewrite pend_app, IH. unfold sumUps. rewrite bsum_cons.
    rewrite !pend_cons. unfold pend at 1; rewrite bsum_nil. ring.
  Qed.
  Lemma concat_ok R C tasks : (forall p, In p tasks -> okOut R C p) -> okOut R C (concat tasks).
  Proof.
    induction tasks as [|p tasks IH]; intros H; cbn; [constructor|]. apply okOut_app; [apply H; now left|].
    apply IH. intros; apply H; now right.
  Qed.
  Lemma pend_concat r c tasks : pend r c (concat tasks) = bsum tasks (fun p => pend r c p).
  Proof. induction tasks as [|p tasks IH]; [reflexivity|]. cbn [concat]. rewrite pend_app, IH. reflexivity. Qed.

  Lemma start_inv R C (task : nat -> list instr) (sched : list (list nat)) (items : list nat) :
    Permutation (concat sched) items ->
    (forall x, In x items -> okOut R C (task x)) ->
    inv R C (fun r c => bsum items (fun x => pend r c (task x))) (start (zeroMat R C) (map (map task) sched)).
  Proof.
    intros HP Hok. unfold inv, start. cbn [ps_mutex ps_mem ps_threads zeroMat m_rows m_cols m_at].
    split; [reflexivity|]. split; [reflexivity|]. split; [|split; [discriminate|]].
    - intros t p reg E. apply nth_error_In in E. apply in_map_iff in E. destruct E as (tasks & E & Hin).
      inversion E; subst p reg. apply in_map_iff in Hin. destruct Hin as (xs & <- & Hxs).
      apply concat_ok. intros p Hp. apply in_map_iff in Hp. destruct Hp as (x & <- & Hx). apply Hok.
      apply (Permutation_in _ HP). apply in_concat. eauto.
    - intros r c. rewrite !bsum_map. cbn [fst].
      rewrite (bsum_ext sched _ (fun a => bsum a (fun x => pend r c (task x)))).
      2:{ intros a _. rewrite pend_concat, bsum_map. reflexivity. }
      rewrite <- (bsum_perm (fun x => pend r c (task x)) HP).
      transitivity (bsum sched (fun a => bsum a (fun x => pend r c (task x)))); [ring|].
      clear. induction sched as [|a l IH]; [reflexivity|]. rewrite bsum_cons. cbn [concat]. rewrite bsum_app, IH. reflexivity.
  Qed.
End Par.
