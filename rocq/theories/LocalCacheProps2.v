(** C48, continued: the answers are the local matrices, and all touching pairs are cached. *)
From Coq Require Import Reals ZArith List Bool Lia Sorted.
Import ListNotations.
From Verif Require Import Base ArrayModel AsmModel SpaceModel QuadModel AccModel AccSpec AccProps LocalCacheModel LocalCacheSpec LocalCacheProofs LocalCacheProps.
Set Implicit Arguments.

Lemma mapRes_Forall2 A B (f : A -> res B) l : forall r, mapRes f l = Ok r <-> Forall2 (fun a b => f a = Ok b) l r.
Proof.
  induction l as [|a l IH]; intros r.
  - cbn. split; [intros H; injection H as <-; constructor|intros H; inversion H; reflexivity].
  - rewrite mapRes_cons. split.
    + intros (b & r' & Hb & Hr & ->). constructor; auto. apply IH; auto.
    + intros H. inversion H; subst. do 2 eexists. split; [eassumption|]. split; [apply IH; eassumption|reflexivity].
Qed.
Lemma Forall2_map_l A B C (f : A -> B) (P : B -> C -> Prop) l r : Forall2 P (map f l) r <-> Forall2 (fun a c => P (f a) c) l r.
Proof.
  revert r. induction l as [|a l IH]; intros r; cbn; split; intros H; inversion H; subst; constructor; auto; apply IH; auto.
Qed.
Lemma Forall2_ext A B (P Q : A -> B -> Prop) l r : (forall a b, P a b <-> Q a b) -> (Forall2 P l r <-> Forall2 Q l r).
Proof. intros E. split; intros H; induction H; constructor; auto; apply E; auto. Qed.
Lemma flat_map_map A B C (f : A -> list B) (h : B -> C) l : map h (flat_map f l) = flat_map (fun a => map h (f a)) l.
Proof. induction l as [|a l IH]; cbn; auto. rewrite map_app, IH. reflexivity. Qed.

(** C48: with or without the cache, the answers are the local matrices of the element pairs asked for *)
Theorem local_matrices : forall (K : star_ring) ao g g' vertexCount testSh trialSh integ integDof setOrder cacheSingular (c : cache K),
  enumerates setOrder -> restricts integ integDof ->
  newAssembler ao g g' vertexCount testSh trialSh integ setOrder cacheSingular = Ok c ->
  forall nominal q matrices,
    answer ao g g' testSh trialSh integ integDof setOrder c nominal q = Ok matrices <->
    wellFormed q /\ Forall2 (isLocal ao g g' testSh trialSh integ nominal) (wanted q) matrices.
Proof.
  intros K ao g g' vc tsh ush integ integDof so cs c HS HR H nominal q ms.
  assert (E : answer ao g g' tsh ush integ integDof so c nominal q = Ok ms <-> answer ao g g' tsh ush integ integDof so (noCache K) nominal q = Ok ms).
  { destruct cs; [|injection H as <-; reflexivity]. eapply cache_transparent; eauto. }
  rewrite E. clear E H c cs.
  assert (C : forall compute w pairs r,
    (forall v p m, compute v p = Ok m <-> match w with Whole => m = integ v p | Column b => b < m_cols (integ v p) /\ m = Mat (m_rows (integ v p)) 1 (fun i _ => m_at (integ v p) i b)
       | Row b => b < m_rows (integ v p) /\ m = Mat 1 (m_cols (integ v p)) (fun _ j => m_at (integ v p) b j) end) ->
    forall fromCache, evalCore ao g g' tsh ush so (noCache K) nominal fromCache compute pairs = Ok r <->
      Forall2 (isLocal ao g g' tsh ush integ nominal) (map (fun p => (fst p, snd p, w)) pairs) r).
  { intros compute w pairs r HC fc. rewrite core_iff, mapRes_Forall2, Forall2_map_l by auto. apply Forall2_ext. intros (e, f) m. cbn [fst snd].
    unfold value, isLocal. cbn [fst snd]. unfold trialCount, trialOf. destruct (Nat.ltb_spec e (length (sg_corners g))) as [L|L]; [|cbn; split; [discriminate|lia]].
    destruct (Nat.ltb_spec f (length (sg_corners match g' with Some h => h | None => g end))) as [L'|L'].
    2: { destruct g'; (destruct (Nat.ltb_spec f (length (sg_corners s))) || destruct (Nat.ltb_spec f (length (sg_corners g)))); try lia; cbn; split; try discriminate; lia. }
    replace (f <? length (sg_corners match g' with None => g | Some h => h end)) with true by (symmetry; apply Nat.ltb_lt; destruct g'; auto).
    cbn [andb]. replace (findCached (noCache K) e f) with (@Ok (option (mat K)) None) by reflexivity. cbn [bind]. unfold select. rewrite bind_ok.
    split.
    - intros (d & Hd & Hm). split; auto. split; auto. exists d. split; auto. apply HC in Hm. exact Hm.
    - intros (_ & _ & d & Hd & Hm). exists d. split; auto. apply HC. exact Hm. }
  assert (W : forall v p m, Ok (integ v p) = Ok m <-> m = integ v p) by (intros; split; congruence).
  assert (P : forall ts us r, evaluatePairs ao g g' tsh ush integ so (noCache K) ts us nominal = Ok r <-> Forall2 (isLocal ao g g' tsh ush integ nominal) (wanted (AskPairs ts us)) r).
  { intros ts us r. unfold evaluatePairs. rewrite (C _ Whole) by exact W. cbn [wanted]. rewrite flat_map_map.
    erewrite flat_map_ext; [reflexivity|]. intros f. rewrite map_map. reflexivity. }
  assert (S : forall e f m, evaluateSingle ao g g' tsh ush integ so (noCache K) e f nominal = Ok m <-> isLocal ao g g' tsh ush integ nominal (e, f, Whole) m).
  { intros e f m. unfold evaluateSingle. rewrite bind_ok. split.
    - intros (l & Hl & X). apply P in Hl. cbn in Hl. inversion Hl as [|a b la lb Ha Hb]; subst. injection X as <-. exact Ha.
    - intros Hm. exists [m]. split; auto. apply P. cbn. constructor; auto. }
  destruct q as [cv As B dof | ts us | e f | ts us]; cbn [answer].
  - assert (E : wanted (AskOne cv As B dof) = map (fun p => (fst p, snd p, match dof with None => Whole | Some b => match cv with TEST_TRIAL => Column b | TRIAL_TEST => Row b end end))
        (map (fun a => match cv with TEST_TRIAL => (a, B) | TRIAL_TEST => (B, a) end) As)).
    { rewrite map_map. destruct cv, dof; reflexivity. }
    rewrite E. unfold evaluateOne. destruct dof as [b|].
    + rewrite (C _ (match cv with TEST_TRIAL => Column b | TRIAL_TEST => Row b end)); [cbn; tauto|].
      intros v p m. destruct (HR b v p) as (R1 & R2). destruct cv; [rewrite R1|rewrite R2]; unfold colOf, rowOf.
      * destruct (Nat.ltb_spec b (m_cols (integ v p))); (split; [intros X; (discriminate || (injection X as <-; auto))|intros (X & ->); auto; lia]).
      * destruct (Nat.ltb_spec b (m_rows (integ v p))); (split; [intros X; (discriminate || (injection X as <-; auto))|intros (X & ->); auto; lia]).
    + rewrite (C _ Whole) by exact W. cbn. tauto.
  - rewrite P. cbn. tauto.
  - rewrite bind_ok. cbn. split.
    + intros (m & Hm & X). injection X as <-. split; auto. constructor; auto. apply S; auto.
    + intros (_ & H). inversion H as [|a b la lb Ha Hb]; subst. inversion Hb; subst. exists b. split; auto. apply S; auto.
  - unfold evaluateList. cbn [wellFormed wanted]. destruct (Nat.eqb_spec (length ts) (length us)) as [L|L]; cbn [negb].
    + rewrite mapRes_Forall2, Forall2_map_l. assert (F : Forall2 (fun a b => evaluateSingle ao g g' tsh ush integ so (noCache K) (fst a) (snd a) nominal = Ok b) (combine ts us) ms <->
        Forall2 (fun a b => isLocal ao g g' tsh ush integ nominal (fst a, snd a, Whole) b) (combine ts us) ms); [|rewrite F; tauto].
      apply Forall2_ext. intros a b. apply S.
    + split; [discriminate|tauto].
Qed.

(** ---- completeness ---- *)
Lemma less_trans a b c : pairLess a b = true -> pairLess b c = true -> pairLess a c = true.
Proof.
  unfold pairLess. rewrite !orb_true_iff, !andb_true_iff, !Nat.ltb_lt, !Nat.eqb_eq. lia.
Qed.
Lemma less_total a b : pairLess a b = false -> pairLess b a = false -> a = b.
Proof.
  unfold pairLess. rewrite !orb_false_iff, !andb_false_iff, !Nat.ltb_ge, !Nat.eqb_neq. destruct a, b; cbn. intros. f_equal; lia.
Qed.
Lemma insert_in p l : In p (pairInsert p l) /\ forall q, In q l -> In q (pairInsert p l).
Proof.
  induction l as [|x l (I1 & I2)]; cbn; [auto|]. destruct (pairLess p x) eqn:A; [cbn; auto|]. destruct (pairLess x p) eqn:B.
  - cbn. split; auto. intros q [->|H]; auto.
  - pose proof (less_total _ _ A B). subst x. cbn. auto.
Qed.
Definition sorted := StronglySorted (fun a b => pairLess a b = true).
Lemma insert_sorted p l : sorted l -> sorted (pairInsert p l).
Proof.
  induction 1 as [|x l S IH F]; cbn; [repeat constructor|]. destruct (pairLess p x) eqn:A.
  - constructor; [constructor; auto|]. constructor; auto. rewrite Forall_forall in *. intros y Hy. eapply less_trans; eauto.
  - destruct (pairLess x p) eqn:B; [|constructor; auto]. constructor; auto. rewrite Forall_forall in *. intros y Hy. apply pairInsert_in in Hy as [->|Hy]; auto.
Qed.
Lemma fold_insert l : forall s, sorted s -> sorted (fold_left (fun s p => pairInsert p s) l s) /\
  forall q, In q s \/ In q l -> In q (fold_left (fun s p => pairInsert p s) l s).
Proof.
  induction l as [|p l IH]; cbn; intros s S; [split; auto; tauto|]. destruct (IH _ (insert_sorted p S)) as (A & B). split; auto.
  intros q [H|[->|H]]; apply B; auto; left; [apply (proj2 (insert_in p s)); auto|apply (proj1 (insert_in q s))].
Qed.
(** every listed element is found in the adjacency lists of its corners *)
Lemma zpush_get (adj adj' : list (list nat)) c e : zpush adj c e = Some adj' -> (0 <= c)%Z /\ (exists l, nth_error adj' (Z.to_nat c) = Some l /\ In e l) /\
  forall k l x, nth_error adj k = Some l -> In x l -> exists l', nth_error adj' k = Some l' /\ In x l'.
Proof.
  unfold zpush, zget, zset. intros E. destruct (c <? 0)%Z eqn:C; [discriminate|]. apply Z.ltb_ge in C. split; auto.
  destruct (nth_error adj (Z.to_nat c)) as [l0|] eqn:E0; [|discriminate]. split.
  - rewrite (upd_nth_error _ _ _ (Z.to_nat c) E), Nat.eqb_refl. eexists. split; [reflexivity|]. apply in_app_iff. cbn. auto.
  - intros k l x Hk Hx. rewrite (upd_nth_error _ _ _ k E). destruct (Nat.eqb_spec k (Z.to_nat c)) as [->|N]; [|eauto].
    eexists. split; [reflexivity|]. rewrite E0 in Hk. injection Hk as <-. apply in_app_iff. auto.
Qed.
Lemma addCorners_get e cs : forall adj adj', addCorners e cs adj = Some adj' ->
  (forall c, In c cs -> (0 <= c)%Z -> exists l, nth_error adj' (Z.to_nat c) = Some l /\ In e l) /\
  forall k l x, nth_error adj k = Some l -> In x l -> exists l', nth_error adj' k = Some l' /\ In x l'.
Proof.
  induction cs as [|c cs IH]; cbn; intros adj adj' E; [injection E as <-; split; [tauto|eauto]|]. destruct (Z.leb_spec 0 c) as [L|L].
  - destruct (zpush adj c e) as [a|] eqn:Ea; [|discriminate]. destruct (zpush_get _ _ _ Ea) as (_ & (l & H1 & H2) & H3). destruct (IH _ _ E) as (I1 & I2). split.
    + intros c' [<-|Hc] L'; auto. eapply I2; eauto.
    + intros k l' x Hk Hx. destruct (H3 _ _ _ Hk Hx) as (l'' & A & B). eapply I2; eauto.
  - destruct (IH _ _ E) as (I1 & I2). split; auto. intros c' [<-|Hc] L'; [lia|auto].
Qed.
Lemma adjacency_get : forall rest e adj adj', adjacency e rest adj = Some adj' ->
  (forall i cs c, nth_error rest i = Some cs -> In c cs -> (0 <= c)%Z -> exists l, nth_error adj' (Z.to_nat c) = Some l /\ In (e + i) l) /\
  forall k l x, nth_error adj k = Some l -> In x l -> exists l', nth_error adj' k = Some l' /\ In x l'.
Proof.
  induction rest as [|cs r IH]; cbn; intros e adj adj' E; [injection E as <-; split; [intros [|i]; discriminate|eauto]|].
  destruct (addCorners e cs adj) as [a|] eqn:Ea; [|discriminate]. destruct (addCorners_get _ _ _ Ea) as (A1 & A2). destruct (IH _ _ _ E) as (I1 & I2). split.
  - intros [|i] cs' c H Hc L.
    + injection H as <-. destruct (A1 c Hc L) as (l & H1 & H2). rewrite Nat.add_0_r. eapply I2; eauto.
    + replace (e + S i) with (S e + i) by lia. eapply I1; eauto.
  - intros k l x Hk Hx. destruct (A2 _ _ _ Hk Hx) as (l' & H1 & H2). eapply I2; eauto.
Qed.
Lemma findPairs_complete g n pairs : findPairs g None n = Ok pairs -> sorted pairs /\
  forall e f ce cf v, nth_error (sg_corners g) e = Some ce -> nth_error (sg_corners g) f = Some cf -> In v ce -> In v cf -> (0 <= v)%Z -> In (e, f) pairs.
Proof.
  unfold findPairs. destruct (adjacency 0 (sg_corners g) (repeat [] n)) as [adj|] eqn:E; [|discriminate]. intros X. injection X as <-.
  destruct (@fold_insert (flat_map vertexPairs adj) []) as (S & I); [constructor|]. split; auto. intros e f ce cf v He Hf Ve Vf Hv. apply I. right.
  destruct (adjacency_get _ _ _ E) as (A & _). destruct (A e ce v He Ve Hv) as (l & H1 & H2). destruct (A f cf v Hf Vf Hv) as (l' & H3 & H4).
  rewrite H1 in H3. injection H3 as <-. apply in_flat_map. exists l. split; [eapply nth_error_In; eauto|]. unfold vertexPairs. apply in_flat_map. exists e. split; auto.
  apply in_map_iff. eauto.
Qed.
(** different pairs get different cells *)
Lemma rowsFrom_fresh l : forall cur nb, sorted l -> (forall e f, In (e, f) l -> cur <= f) ->
  NoDup (map (fun x => (fst x, snd (snd x))) (rowsFrom cur nb l)) /\
  forall k e f, In (k, (e, f)) (rowsFrom cur nb l) -> cur <= f /\ (f = cur -> nb <= k).
Proof.
  induction l as [|(e, f) l IH]; cbn; intros cur nb S B; [split; [constructor|tauto]|]. inversion S as [|a b S' F]; subst.
  assert (B' : forall e0 f0, In (e0, f0) l -> f <= f0).
  { intros e0 f0 H. rewrite Forall_forall in F. specialize (F _ H). unfold pairLess in F. cbn [fst snd] in F. apply orb_true_iff in F. rewrite andb_true_iff, !Nat.ltb_lt, Nat.eqb_eq in F. lia. }
  pose proof (B e f (or_introl eq_refl)) as L.
  destruct (Nat.eqb_spec f cur) as [->|N].
  - destruct (IH cur (Datatypes.S nb) S') as (N1 & N2); [eauto|]. split.
    + cbn. constructor; auto. intros H. apply in_map_iff in H as ((k, (e0, f0)) & H & Hi). cbn in H. injection H as -> ->. destruct (N2 _ _ _ Hi) as (_ & X). specialize (X eq_refl). lia.
    + intros k e0 f0 [H|H]; [injection H as <- <- <-; auto|]. destruct (N2 _ _ _ H) as (X1 & X2). split; auto. intros ->. specialize (X2 eq_refl). lia.
  - destruct (IH f 1 S') as (N1 & N2); [eauto|]. split.
    + cbn. constructor; auto. intros H. apply in_map_iff in H as ((k, (e0, f0)) & H & Hi). cbn in H. injection H as -> ->. destruct (N2 _ _ _ Hi) as (_ & X). specialize (X eq_refl). lia.
    + intros k e0 f0 [H|H]; [injection H as <- <- <-; lia|]. destruct (N2 _ _ _ H) as (X1 & X2). lia.
Qed.
Lemma cacheRows_fresh l : sorted l -> NoDup (map (fun x => (fst x, snd (snd x))) (cacheRows l)).
Proof.
  intros S. unfold cacheRows. destruct l as [|(e, f) l]; [constructor|]. apply (@rowsFrom_fresh ((e, f) :: l) f 0 S).
  intros e0 f0 [H|H]; [injection H as _ ->; auto|]. inversion S as [|a b S' F]; subst. rewrite Forall_forall in F. specialize (F _ H). unfold pairLess in F. cbn [fst snd] in F.
  apply orb_true_iff in F. rewrite andb_true_iff, !Nat.ltb_lt, Nat.eqb_eq in F. lia.
Qed.
Section Written.
  Variable K : star_ring.
  Variable integ : variant -> nat * nat -> mat K.
  Definition hasCell (cols : list (list (cell K))) (nb e f : nat) : Prop := exists col c, nth_error cols f = Some col /\ nth_error col nb = Some c /\ fst c = Some e.
  Definition once (items : list (variant * (nat * (nat * nat)))) : Prop :=
    forall q q' nb e e' f, In (q, (nb, (e, f))) items -> In (q', (nb, (e', f))) items -> e = e'.
  Lemma setCell_has cols nb f c cols' : setCell cols nb f c = Some cols' -> (forall e, fst c = Some e -> hasCell cols' nb e f) /\
    forall nb' e' f', hasCell cols nb' e' f' -> (nb' <> nb \/ f' <> f \/ fst c = Some e') -> hasCell cols' nb' e' f'.
  Proof.
    unfold setCell. destruct (nth_error cols f) as [col|] eqn:Ef; [|discriminate]. destruct (upd col nb c) as [col'|] eqn:Eu; [|discriminate]. intros E. split.
    - intros e He. exists col', c. rewrite (upd_nth_error _ _ _ f E), Nat.eqb_refl, (upd_nth_error _ _ _ nb Eu), Nat.eqb_refl. auto.
    - intros nb' e' f' (col0 & c0 & H1 & H2 & H3) D. unfold hasCell. rewrite (upd_nth_error _ _ _ f' E). destruct (Nat.eqb_spec f' f) as [->|N]; [|eauto 10].
      exists col'. rewrite Ef in H1. injection H1 as <-. rewrite (upd_nth_error _ _ _ nb' Eu). destruct (Nat.eqb_spec nb' nb) as [->|N]; [|eauto].
      exists c. split; auto. split; auto. intuition.
  Qed.
  Lemma cacheVariant_has items0 : once items0 -> forall v items cols cols', incl items items0 -> cacheVariant integ v items cols = Ok cols' ->
    (forall nb e f, In (v, (nb, (e, f))) items -> hasCell cols' nb e f) /\
    (forall q nb e f, In (q, (nb, (e, f))) items0 -> hasCell cols nb e f -> hasCell cols' nb e f).
  Proof.
    intros O v. induction items as [|(q, (nb, (e, f))) r IH]; cbn [cacheVariant]; intros cols cols' I E; [injection E as <-; split; [cbn; tauto|auto]|].
    destruct (variant_dec q v) as [->|N].
    - destruct (setCell cols nb (snd (e, f)) _) as [c'|] eqn:Ec; [|discriminate]. cbn [fst snd] in Ec.
      destruct (setCell_has _ _ _ _ Ec) as (S1 & S2). destruct (IH c' cols') as (I1 & I2); auto. { intros x Hx. apply I. right; auto. }
      split.
      + intros nb' e' f' [H|H]; [injection H as <- <- <-|auto]. eapply I2; [apply I; left; reflexivity|]. apply S1. reflexivity.
      + intros q' nb' e' f' Hin Hc. eapply I2; [exact Hin|]. apply S2; auto.
        destruct (Nat.eq_dec nb' nb) as [->|]; auto. destruct (Nat.eq_dec f' f) as [->|]; auto. right; right. cbn. f_equal.
        eapply O; [apply I; left; reflexivity|exact Hin].
    - destruct (IH cols cols') as (I1 & I2); auto. { intros x Hx. apply I. right; auto. } split; auto.
      intros nb' e' f' [H|H]; [congruence|auto].
  Qed.
  Lemma cacheVariants_has items : once items -> forall vs cols cols', cacheVariants integ vs items cols = Ok cols' ->
    (forall v nb e f, In v vs -> In (v, (nb, (e, f))) items -> hasCell cols' nb e f) /\
    (forall q nb e f, In (q, (nb, (e, f))) items -> hasCell cols nb e f -> hasCell cols' nb e f).
  Proof.
    intros O. induction vs as [|v vs IH]; cbn; intros cols cols' E; [injection E as <-; split; [tauto|auto]|].
    apply bind_ok in E as (c1 & E1 & E). destruct (cacheVariant_has O v cols (incl_refl _) E1) as (A1 & A2). destruct (IH _ _ E) as (I1 & I2). split.
    - intros w nb e f [->|H] Hi; [eapply I2; eauto|eauto].
    - intros q nb e f Hi Hc. eapply I2; eauto.
  Qed.
End Written.

(** C48: the local matrices of all pairs of elements with a common vertex are computed in the constructor and found later *)
Theorem cache_complete : forall (K : star_ring) ao g vertexCount testSh trialSh (integ : variant -> nat * nat -> mat K) setOrder (c : cache K),
  enumerates setOrder -> newAssembler ao g None vertexCount testSh trialSh integ setOrder true = Ok c ->
  forall e f ce cf v, nth_error (sg_corners g) e = Some ce -> nth_error (sg_corners g) f = Some cf -> In v ce -> In v cf -> (0 <= v)%Z ->
  exists d, quadratureDescriptor ao g None e f (-1) = Ok d /\ findCached c e f = Ok (Some (integ (d, testSh e, trialSh f) (e, f))).
Proof.
  intros K ao g vc tsh ush integ so c HS H e f ce cf v He Hf Ve Vf Hv. cbn in H. apply bind_ok in H as (pairs & Hp & H).
  destruct (findPairs_complete _ _ Hp) as (S & I). pose proof (I _ _ _ _ _ He Hf Ve Vf Hv) as Hi.
  assert (Lf : f < trialCount g None) by (apply nth_error_Some; cbn; congruence).
  destruct (@cache_found K ao g None tsh ush integ so pairs c H e f Lf) as [E | (d & _ & Hd & E)]; [|exists d; split; auto].
  exfalso. unfold cacheLocalWeakForms in H. destruct pairs as [|p0 ps] eqn:Ep; [contradiction|]. rewrite <- Ep in *.
  apply bind_ok in H as (qs & Hq & H). apply bind_ok in H as (cols & Hc & H). injection H as <-.
  assert (LQ : length qs = length (cacheRows pairs)). { rewrite (mapRes_length _ _ Hq). rewrite <- (cacheRows_snd pairs) at 1. apply map_length. }
  assert (O : once (combine qs (cacheRows pairs))).
  { intros q q' nb e0 e1 f0 H1 H2. apply in_combine_r in H1, H2. pose proof (cacheRows_fresh S) as ND.
    clear - ND H1 H2. induction (cacheRows pairs) as [|(k, (x, y)) l IH]; [contradiction|]. cbn in ND. inversion ND as [|a b NI ND']; subst.
    destruct H1 as [H1|H1], H2 as [H2|H2]; auto.
    - congruence.
    - injection H1 as -> -> ->. exfalso. apply NI. apply in_map_iff. exists (nb, (e1, f0)). auto.
    - injection H2 as -> -> ->. exfalso. apply NI. apply in_map_iff. exists (nb, (e0, f0)). auto. }
  assert (exists q nb, In (q, (nb, (e, f))) (combine qs (cacheRows pairs)) /\ In q qs) as (q & nb & Hin & Hq').
  { rewrite <- (cacheRows_snd pairs) in Hi. apply in_map_iff in Hi as ((nb, p) & Hx & Hi). cbn in Hx. subst p. apply In_nth_error in Hi as (k & Hk).
    destruct (nth_error qs k) as [q|] eqn:Eq; [|apply nth_error_None in Eq; assert (k < length (cacheRows pairs)) by (apply nth_error_Some; congruence); lia].
    exists q, nb. split; [|eapply nth_error_In; eauto]. clear - Hk Eq. revert k qs Hk Eq. induction (cacheRows pairs) as [|x l IH]; intros [|k] [|y qs] Hk Eq; try discriminate.
    - cbn in *. left. congruence.
    - cbn in *. right. eapply IH; eauto. }
  destruct (@cacheVariants_has K integ _ O _ _ _ Hc) as (W & _). destruct (W q nb e f) as (col & x & H1 & H2 & H3); auto; [apply HS; auto|].
  unfold findCached in E. cbn [ca_extent ca_cols] in E.
  assert (L : nb < maxNeighbours pairs) by (eapply cacheRows_lt; eapply in_combine_r; exact Hin).
  destruct (Nat.eqb_spec (maxNeighbours pairs) 0) as [Z|_]; [lia|]. rewrite H1 in E.
  assert (F : findCell col e <> None).
  { clear - H2 H3. apply nth_error_In in H2. induction col as [|y col IH]; [contradiction|]. cbn. destruct H2 as [->|H2].
    - rewrite H3, Nat.eqb_refl. discriminate.
    - destruct (fst y); [|auto]. destruct (_ =? _); [discriminate|auto]. }
  destruct (findCell col e) as [(i, [m|])|]; [discriminate|discriminate|congruence].
Qed.
Print Assumptions local_matrices.
Print Assumptions cache_complete.
