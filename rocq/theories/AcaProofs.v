(** Proofs for C11, C12. *)
From Verif Require Import Base HMatApplyModel HMatApplySpec AcaModel.
Set Implicit Arguments.

Section Proofs.
  Variable K : star_ring.
  Add Ring KrA : (sr_ring K).
  Local Open Scope sr_scope.
  Variable inv : K -> K.
  Hypothesis inv_ok : forall x, x <> 0 -> x * inv x = 1.
  Variable V : Type.
  Variable mag : K -> V.
  Variable lt : V -> V -> bool.
  Variable vmax : V.
  Variable M : nat -> nat -> K.
  Variables rows cols : nat.
  Variable tiny : nat -> nat -> K -> bool.
  Hypothesis tiny_ok : forall i j x, tiny i j x = false -> x <> 0.
  Variable Nrm : Type.
  Variable norm0 : Nrm.
  Variable normUpdate : (nat -> K) -> (nat -> K) -> list ((nat -> K) * (nat -> K)) -> Nrm -> Nrm.
  Variable conv : (nat -> K) -> (nat -> K) -> Nrm -> bool.

  Notation st := (st K Nrm).
  Notation aca := (aca inv mag lt M rows cols tiny normUpdate conv).
  Notation aca_loop := (aca_loop inv mag lt M rows cols tiny normUpdate conv).
  Notation computeCross := (computeCross inv mag lt M rows cols tiny).
  Notation argmax := (argmax mag lt).

  Lemma inv_ok' x : x <> 0 -> inv x * x = 1.
  Proof. intros H. transitivity (x * inv x); [ring|auto]. Qed.
  Lemma argmax_from_in f l : forall b, argmax_from mag lt f b l = b \/ In (argmax_from mag lt f b l) l.
  Proof.
    induction l as [|i l IH]; intros b; [now left|]. cbn.
    destruct (IH (if lt (mag (f b)) (mag (f i)) then i else b)) as [E|H].
    - rewrite E. destruct (lt (mag (f b)) (mag (f i))); [right; now left|now left].
    - right; now right.
  Qed.
  Lemma argmax_lt f n : (0 < n)%nat -> (argmax f n < n)%nat.
  Proof.
    intros Hn. unfold argmax. destruct (argmax_from_in f (seq 1 (n - 1)) 0) as [->|H]; [exact Hn|].
    apply in_seq in H. lia.
  Qed.

  Lemma selectMin_ok vec count l : forall b v p,
    (forall q, b = Some q -> count q = 0%nat) ->
    selectMin_from mag lt vec count b v l = Some p ->
    (b = Some p \/ In p l) /\ count p = 0%nat.
  Proof.
    induction l as [|i l IH]; intros b v p Hb E; cbn in E.
    - subst b. auto.
    - destruct ((count i =? 0)%nat && lt (mag (vec i)) v)%bool eqn:C.
      + apply IH in E.
        * destruct E as [[E|E] E']; [inversion E; subst|]; cbn; auto.
        * intros q Eq. inversion Eq; subst. apply andb_true_iff in C. now apply Nat.eqb_eq.
      + apply IH in E; [|exact Hb]. cbn. tauto.
  Qed.
  Lemma selectMinPivot_ok vec count n p : selectMinPivot mag lt vmax vec count n = Some p ->
    (p < n)%nat /\ count p = 0%nat.
  Proof.
    unfold selectMinPivot. intros E. apply selectMin_ok in E; [|discriminate].
    destruct E as [[E|E] H]; [discriminate|]. apply in_seq in E. split; [lia|exact H].
  Qed.

  (** residual *)
  Definition res (l : crosses K) i j := M i j - AB l i j.
  Lemma AB_snoc (l : crosses K) c r i j : AB (l ++ [(c, r)]) i j = AB l i j + c i * r j.
  Proof. unfold AB. rewrite bsum_app, bsum_cons, bsum_nil. cbn. ring. Qed.

  Record Inv (r0 : nat) (s : st) : Prop := {
    i_next : forall i, In i (map fst (st_piv s)) -> (i < rows)%nat;
    i_nextc : forall j, In j (map snd (st_piv s)) -> (j < cols)%nat;
    i_row : forall i j, In i (map fst (st_piv s)) -> (j < cols)%nat -> res (st_ab s) i j = 0;
    i_col : forall i j, In j (map snd (st_piv s)) -> (i < rows)%nat -> res (st_ab s) i j = 0;
    i_ndr : NoDup (map fst (st_piv s));
    i_ndc : NoDup (map snd (st_piv s));
    i_len : length (st_ab s) = length (st_piv s);
    i_cnt : (length (st_piv s) + st_maxit s = r0)%nat;
    i_rc : forall i, In i (map fst (st_piv s)) -> st_rc s i <> 0%nat;
    i_cc : forall j, In j (map snd (st_piv s)) -> st_cc s j <> 0%nat }.

  Definition dim (m : mode) := match m with ROW => rows | COL => cols end.

  (** the invariant does not mention nextPivot, origRow, origCol, norm *)
  Lemma Inv_with_next r s n : Inv r s -> Inv r (with_next s n).
  Proof. intros []. constructor; assumption. Qed.

  Lemma bump_ne c i k : c k <> 0%nat -> bump c i k <> 0%nat.
  Proof. unfold bump. destruct (k =? i)%nat; lia. Qed.
  Lemma bump_eq c i : bump c i i <> 0%nat.
  Proof. unfold bump. rewrite Nat.eqb_refl. lia. Qed.

  (** what a successful cross is *)
  Definition cross_ok (s : st) (row col : nat -> K) (p : nat * nat) : Prop :=
    (fst p < rows)%nat /\ (snd p < cols)%nat /\ res (st_ab s) (fst p) (snd p) <> 0 /\
    ((exists u, u * res (st_ab s) (fst p) (snd p) = 1 /\
       (forall j, row j = res (st_ab s) (fst p) j * u) /\ (forall i, col i = res (st_ab s) i (snd p)))
     \/ (exists u, u * res (st_ab s) (fst p) (snd p) = 1 /\
       (forall j, row j = res (st_ab s) (fst p) j) /\ (forall i, col i = res (st_ab s) i (snd p) * u))).

  Lemma computeCross_ok r m s : (0 < rows)%nat -> (0 < cols)%nat -> Inv r s -> (st_next s < dim m)%nat ->
    exists cs s' row col p, computeCross m s = Some (cs, s', row, col, p) /\
      Inv r s' /\ st_ab s' = st_ab s /\ st_piv s' = st_piv s /\ st_maxit s' = st_maxit s /\
      st_norm s' = st_norm s /\
      (cs = SUCCESS -> cross_ok s row col p /\ (st_next s' < dim m)%nat /\
         st_rc s' (fst p) <> 0%nat /\ st_cc s' (snd p) <> 0%nat).
  Proof.
    intros Hr Hc HI Hn. destruct m; cbn [computeCross dim] in *.
    - apply Nat.ltb_lt in Hn as Hn'. unfold AcaModel.computeCross. rewrite Hn'. cbv zeta.
      set (i := st_next s) in *. set (row := fun j => M i j - AB (st_ab s) i j).
      set (j := argmax row cols). assert (Hj : (j < cols)%nat) by now apply argmax_lt.
      change (M i j - AB (st_ab s) i j) with (row j). destruct (tiny i j (row j)) eqn:Et.
      + do 5 eexists. split; [reflexivity|]. destruct HI. repeat (split; [first [reflexivity | constructor; assumption]|]).
        discriminate.
      + apply tiny_ok in Et.
        do 5 eexists. split; [reflexivity|]. split.
        { destruct HI. constructor; cbn; try assumption; intros; apply bump_ne; auto. }
        repeat (split; [reflexivity|]). intros _. cbn [fst snd st_next st_rc st_cc].
        split; [|split; [|split]].
        * repeat (split; [assumption|]). left. exists (inv (row j)). split.
          { change (res (st_ab s) i j) with (row j).
            now apply inv_ok'. }
          split; reflexivity.
        * now apply argmax_lt.
        * apply bump_eq.
        * apply bump_eq.
    - apply Nat.ltb_lt in Hn as Hn'. unfold AcaModel.computeCross. rewrite Hn'. cbv zeta.
      set (j := st_next s) in *. set (col := fun i => M i j - AB (st_ab s) i j).
      set (i := argmax col rows). assert (Hi : (i < rows)%nat) by now apply argmax_lt.
      change (M i j - AB (st_ab s) i j) with (col i). destruct (tiny i j (col i)) eqn:Et.
      + do 5 eexists. split; [reflexivity|]. destruct HI. repeat (split; [first [reflexivity | constructor; assumption]|]).
        discriminate.
      + apply tiny_ok in Et.
        do 5 eexists. split; [reflexivity|]. split.
        { destruct HI. constructor; cbn; try assumption; intros; apply bump_ne; auto. }
        repeat (split; [reflexivity|]). intros _. cbn [fst snd st_next st_rc st_cc].
        split; [|split; [|split]].
        * repeat (split; [assumption|]). right. exists (inv (col i)). split.
          { change (res (st_ab s) i j) with (col i).
            now apply inv_ok'. }
          split; reflexivity.
        * now apply argmax_lt.
        * apply bump_eq.
        * apply bump_eq.
  Qed.

  Lemma res_snoc (l : crosses K) c r i j : res (l ++ [(c, r)]) i j = res l i j - c i * r j.
  Proof. unfold res. rewrite AB_snoc. ring. Qed.

  Lemma accept_Inv r s s' row col p k :
    Inv r s' -> st_ab s' = st_ab s -> st_maxit s' = S k ->
    cross_ok s row col p -> st_rc s' (fst p) <> 0%nat -> st_cc s' (snd p) <> 0%nat ->
    Inv r (accept normUpdate s' row col p k).
  Proof.
    intros [] Eab Em (Hi & Hj & Hne & Hx) Hrc Hcc. rewrite <- Eab in *. clear Eab.
    destruct p as [i0 j0]. cbn [fst snd] in *.
    assert (Hnew : forall i j, res (st_ab s' ++ [(col, row)]) i j
              = res (st_ab s') i j - col i * row j) by (intros; apply res_snoc).
    assert (Hcr : forall i j, exists u, col i * row j = res (st_ab s') i j0 * res (st_ab s') i0 j * u
                 /\ u * res (st_ab s') i0 j0 = 1).
    { intros i j. destruct Hx as [(u & Hu & Hr & Hc)|(u & Hu & Hr & Hc)]; exists u; (split; [|exact Hu]);
      rewrite Hr, Hc; ring. }
    constructor; cbn [accept st_piv st_ab st_maxit st_rc st_cc]; rewrite ?map_app; cbn [map fst snd].
    - intros i H. apply in_app_iff in H. destruct H as [H|[<-|[]]]; auto.
    - intros j H. apply in_app_iff in H. destruct H as [H|[<-|[]]]; auto.
    - intros i j H Hjc. rewrite Hnew. destruct (Hcr i j) as (u & E & Hu). rewrite E.
      apply in_app_iff in H. destruct H as [H|[<-|[]]].
      + rewrite (i_row0 i j H Hjc), (i_row0 i j0 H Hj). ring.
      + transitivity (res (st_ab s') i0 j * (1 - u * res (st_ab s') i0 j0)); [ring|]. rewrite Hu. ring.
    - intros i j H Hir. rewrite Hnew. destruct (Hcr i j) as (u & E & Hu). rewrite E.
      apply in_app_iff in H. destruct H as [H|[<-|[]]].
      + rewrite (i_col0 i j H Hir), (i_col0 i0 j H Hi). ring.
      + transitivity (res (st_ab s') i j0 * (1 - u * res (st_ab s') i0 j0)); [ring|]. rewrite Hu. ring.
    - apply NoDup_app; [assumption|constructor; [easy|constructor]|].
      intros x H [<-|[]]. apply Hne. now apply i_row0.
    - apply NoDup_app; [assumption|constructor; [easy|constructor]|].
      intros x H [<-|[]]. apply Hne. now apply i_col0.
    - rewrite !app_length. cbn. lia.
    - rewrite app_length. cbn [length]. lia.
    - intros i H. apply in_app_iff in H. destruct H as [H|[<-|[]]]; auto.
    - intros i H. apply in_app_iff in H. destruct H as [H|[<-|[]]]; auto.
  Qed.

  Lemma aca_loop_ok r m : (0 < rows)%nat -> (0 < cols)%nat ->
    forall fuel it s, (st_maxit s <= fuel)%nat -> Inv r s -> (st_next s < dim m)%nat ->
    exists a s', aca_loop fuel m it s = Some (a, s') /\ Inv r s' /\
      exists e, st_ab s' = st_ab s ++ e.
  Proof.
    intros Hr Hc. induction fuel as [|f IH]; intros it s Hf HI Hn; cbn [AcaModel.aca_loop].
    - assert (E : st_maxit s = 0%nat) by lia. rewrite E. cbn. do 2 eexists. split; [reflexivity|].
      split; [exact HI|]. exists []. now rewrite app_nil_r.
    - destruct (st_maxit s) as [|k] eqn:Ek.
      { do 2 eexists. split; [reflexivity|]. split; [exact HI|]. exists []. now rewrite app_nil_r. }
      destruct (computeCross_ok m Hr Hc HI Hn) as (cs & s' & row & col & p & E & HI' & Eab & Ep & Em & En & Hs).
      rewrite E. destruct cs.
      + do 2 eexists. split; [reflexivity|]. split; [exact HI'|]. exists []. now rewrite app_nil_r.
      + destruct (Hs eq_refl) as (Hx & Hn' & Hrc & Hcc).
        destruct (conv row col (st_norm s')).
        * do 2 eexists. split; [reflexivity|]. split; [exact HI'|]. exists []. now rewrite app_nil_r.
        * destruct (IH true (accept normUpdate s' row col p k)) as (a & s'' & E' & HI'' & e & Ee).
          -- cbn. lia.
          -- eapply accept_Inv; eauto. lia.
          -- exact Hn'.
          -- exists a, s''. split; [exact E'|]. split; [exact HI''|].
             exists ([(col, row)] ++ e). rewrite Ee. cbn. rewrite Eab, <- app_assoc. reflexivity.
  Qed.

  Lemma aca_ok r m s : (0 < rows)%nat -> (0 < cols)%nat -> Inv r s -> (st_next s < dim m)%nat ->
    exists a s', aca m s = Some (a, s') /\ Inv r s' /\ st_next s' = st_next s.
  Proof.
    intros Hr Hc HI Hn. unfold AcaModel.aca.
    destruct (aca_loop_ok m Hr Hc (fuel := st_maxit s) false (le_n _) HI Hn) as (a & s' & E & HI' & _).
    rewrite E. do 2 eexists. split; [reflexivity|]. split; [now apply Inv_with_next|reflexivity].
  Qed.

  Lemma main_ok r : (0 < rows)%nat -> (0 < cols)%nat -> forall fuel n c s,
    (3 <= fuel + c_rtc c + c_ctc c)%nat -> (n = c_rtc c + c_ctc c)%nat ->
    (c_rtc c <= 1)%nat -> (c_ctc c <= 1)%nat ->
    Inv r s -> (st_next s < dim (c_mode c))%nat ->
    exists k s', main_loop inv mag lt vmax M rows cols tiny normUpdate conv fuel n c s = Some (k, s') /\
      (k <= 3)%nat /\ Inv r s'.
  Proof.
    intros Hr Hc. induction fuel as [|f IH]; intros n c s Hf En H1 H2 HI Hn; [lia|].
    cbn [main_loop]. destruct (aca_ok (c_mode c) Hr Hc HI Hn) as (a & s1 & E & HI1 & En1).
    rewrite E. destruct (onStatus a c) as [fin c1] eqn:Eo.
    assert (Hc1 : c_rtc c1 = c_rtc c /\ c_ctc c1 = c_ctc c /\ (fin = false -> c_state c1 <> START)).
    { destruct c as [cst cm cr cc crc ccc crz ccz].
      destruct a, cst, cm; cbn in Eo; inversion Eo; cbn; repeat split; discriminate. }
    destruct Hc1 as (Hc1 & Hc2 & Hst).
    destruct fin. { do 2 eexists. split; [reflexivity|]. split; [lia|exact HI1]. }
    specialize (Hst eq_refl).
    unfold rowTrial. destruct (c_state c1) eqn:Es; [contradiction| |].
    - destruct (Nat.ltb_spec (c_rtc c1) 1) as [Hlt|Hge].
      + destruct (selectMinPivot mag lt vmax (st_orow s1) (st_cc s1) cols) as [p|] eqn:Ep.
        * apply selectMinPivot_ok in Ep.
          unfold colTrial. cbn [c_state]. apply IH; cbn [c_rtc c_ctc c_mode]; try lia.
          -- now apply Inv_with_next.
          -- cbn. tauto.
        * do 2 eexists. split; [reflexivity|]. split; [lia|now apply Inv_with_next].
      + do 2 eexists. split; [reflexivity|]. split; [lia|exact HI1].
    - unfold colTrial. rewrite Es.
      destruct (Nat.ltb_spec (c_ctc c1) 1) as [Hlt|Hge].
      + destruct (selectMinPivot mag lt vmax (st_ocol s1) (st_rc s1) rows) as [p|] eqn:Ep.
        * apply selectMinPivot_ok in Ep. apply IH; cbn [c_rtc c_ctc c_mode]; try lia.
          -- now apply Inv_with_next.
          -- cbn. tauto.
        * do 2 eexists. split; [reflexivity|]. split; [lia|now apply Inv_with_next].
      + do 2 eexists. split; [reflexivity|]. split; [lia|exact HI1].
  Qed.

  Lemma st0_Inv maxRank : Inv (Nat.min maxRank (Nat.min rows cols)) (st0 K rows cols norm0 maxRank).
  Proof. constructor; cbn; try easy; constructor. Qed.

  Lemma factors_entry (s : st) i j : hentry (factors rows cols s) i j = AB (st_ab s) i j.
  Proof.
    unfold factors, hentry, AB. 
    set (d := ((fun _ => 0) : nat -> K, (fun _ => 0) : nat -> K)).
    transitivity (bsum (map (fun q => nth q (st_ab s) d) (seq 0 (length (st_ab s)))) (fun c => fst c i * snd c j)).
    - rewrite bsum_map. reflexivity.
    - rewrite map_nth_seq. reflexivity.
  Qed.

  Lemma aca_main maxRank : (0 < rows)%nat -> (0 < cols)%nat -> forall fuel, (3 <= fuel)%nat ->
    exists k s, compressAca inv mag lt vmax M rows cols tiny norm0 normUpdate conv fuel maxRank = Some (k, s) /\
      (k <= 3)%nat /\
      hd_shape (factors rows cols s) rows cols /\
      (length (st_ab s) <= Nat.min maxRank (Nat.min rows cols))%nat /\
      length (st_piv s) = length (st_ab s) /\
      NoDup (map fst (st_piv s)) /\ NoDup (map snd (st_piv s)) /\
      (forall i j, In (i, j) (st_piv s) -> (i < rows)%nat /\ (j < cols)%nat /\
        (forall j', (j' < cols)%nat -> hentry (factors rows cols s) i j' = M i j') /\
        (forall i', (i' < rows)%nat -> hentry (factors rows cols s) i' j = M i' j)).
  Proof.
    intros Hr Hc fuel Hf.
    destruct (@main_ok (Nat.min maxRank (Nat.min rows cols)) Hr Hc fuel 0%nat ctl0 (st0 K rows cols norm0 maxRank))
      as (k & s & E & Hk & HI); cbn; try lia.
    - apply st0_Inv.
    - exists k, s. split; [exact E|]. split; [exact Hk|]. destruct HI. split.
      { cbn. right. auto. }
      split; [lia|]. split; [lia|]. split; [assumption|]. split; [assumption|].
      intros i j Hin. assert (H1 : In i (map fst (st_piv s))) by (apply in_map_iff; exists (i, j); auto).
      assert (H2 : In j (map snd (st_piv s))) by (apply in_map_iff; exists (i, j); auto).
      split; [auto|]. split; [auto|].
      assert (Hz : forall a b, res (st_ab s) a b = 0 -> hentry (factors rows cols s) a b = M a b).
      { intros a b Hz. rewrite factors_entry. unfold res in Hz.
        transitivity (M a b - (M a b - AB (st_ab s) a b)); [ring|]. rewrite Hz. ring. }
      split; intros; apply Hz; auto.
  Qed.

  (** if the rank reaches the number of rows or columns, the block is reproduced *)
  Lemma aca_full maxRank fuel k s : (0 < rows)%nat -> (0 < cols)%nat ->  (3 <= fuel)%nat ->
    compressAca inv mag lt vmax M rows cols tiny norm0 normUpdate conv fuel maxRank = Some (k, s) ->
    length (st_ab s) = rows \/ length (st_ab s) = cols ->
    forall i j, (i < rows)%nat -> (j < cols)%nat -> hentry (factors rows cols s) i j = M i j.
  Proof.
    intros Hr Hc Hf E Hl i j Hi Hj.
    destruct (aca_main maxRank Hr Hc Hf) as (k' & s' & E' & _ & _ & _ & Hlen & N1 & N2 & H).
    rewrite E in E'. inversion E'; subst k' s'. clear E'.
    destruct Hl as [Hl|Hl].
    - assert (Hin : In i (map fst (st_piv s))).
      { apply (NoDup_length_incl N1 (l' := seq 0 rows)).
        - rewrite seq_length, map_length. lia.
        - intros x Hx. apply in_map_iff in Hx. destruct Hx as ((a, b) & <- & Hx). apply in_seq.
          destruct (H a b Hx). cbn. lia.
        - apply in_seq. lia. }
      apply in_map_iff in Hin. destruct Hin as ((a, b) & <- & Hx). now apply (H a b Hx).
    - assert (Hin : In j (map snd (st_piv s))).
      { apply (NoDup_length_incl N2 (l' := seq 0 cols)).
        - rewrite seq_length, map_length. lia.
        - intros x Hx. apply in_map_iff in Hx. destruct Hx as ((a, b) & <- & Hx). apply in_seq.
          destruct (H a b Hx). cbn. lia.
        - apply in_seq. lia. }
      apply in_map_iff in Hin. destruct Hin as ((a, b) & <- & Hx). now apply (H a b Hx).
  Qed.
End Proofs.
