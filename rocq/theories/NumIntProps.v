(** C116-C118: numerical integration of element pairs. *)
From Coq Require Import List Bool Arith Lia.
Import ListNotations.
From Verif Require Import Base ArrayModel NumIntModel NumIntSpec NumIntProofs.
Set Implicit Arguments.
Unset Strict Implicit.

(** C116: each result is the local matrix of its own pair of elements: the same for both call
    variants and for pairs, with and without cached geometrical data, whatever the other elements of
    the batch are and whatever earlier calls left in the thread-local data *)
Theorem C116_local_matrices :
  forall (V B T Kv M Sh : Type) (s : setup V B T Kv M Sh), honest s -> 0 < testPoints s -> 0 < trialPoints s ->
  forall (cached : bool) (nTest nTrial : nat), let it := makeIntegrator s cached nTest nTrial in
  forall (l : local V) (result : list M),
  (forall es f shA shB dof, length result = length es -> Forall (fun e => e < nTest) es -> f < nTrial ->
     exists l', integrateCpu s it TEST_TRIAL es f shA shB dof result l = Ok (map (fun e => localMatrix s e f shA None shB dof) es, l')) /\
  (forall es f shA shB dof, length result = length es -> Forall (fun e => e < nTrial) es -> f < nTest ->
     exists l', integrateCpu s it TRIAL_TEST es f shA shB dof result l = Ok (map (fun e => localMatrix s f e shB dof shA None) es, l')) /\
  (forall ps testSh trialSh, length result = length ps -> Forall (fun p => fst p < nTest /\ snd p < nTrial) ps ->
     exists l', integratePairsCpu s it ps testSh trialSh result l = Ok (map (fun p => localMatrix s (fst p) (snd p) testSh None trialSh None) ps, l')).
Proof.
  intros V B T Kv M Sh s H P Q cached n m it l result.
  assert (W : valid s it n m) by (unfold valid, it; cbn; reflexivity).
  assert (P' : (testPoints s =? 0) = false) by (apply Nat.eqb_neq; lia). assert (Q' : (trialPoints s =? 0) = false) by (apply Nat.eqb_neq; lia).
  split; [|split].
  - intros es f shA shB dof L F E. unfold integrateCpu. rewrite L, Nat.eqb_refl, P', Q'. cbn [negb orb].
    destruct es as [|e es]; [destruct result; [|discriminate]; exists l; reflexivity|]. cbn [length Nat.eqb].
    destruct (trialData_ok l W E) as (d & l1 & -> & D). cbn [bind fst snd]. apply (loopTestTrial_ok H _ _ W D). exact F.
  - intros es f shA shB dof L F E. unfold integrateCpu. rewrite L, Nat.eqb_refl, P', Q'. cbn [negb orb].
    destruct es as [|e es]; [destruct result; [|discriminate]; exists l; reflexivity|]. cbn [length Nat.eqb].
    destruct (testData_ok l W E) as (d & l1 & -> & D). cbn [bind fst snd]. apply (loopTrialTest_ok H _ _ W D). exact F.
  - intros ps testSh trialSh L F. unfold integratePairsCpu. rewrite L, Nat.eqb_refl, P', Q'. cbn [negb orb].
    destruct ps as [|p ps]; [destruct result; [|discriminate]; exists l; reflexivity|]. cbn [length Nat.eqb]. apply (loopPairs_ok H _ _ W). exact F.
Qed.
(** the number of results must match the number of elements or pairs *)
Theorem C116_size_mismatch :
  forall (V B T Kv M Sh : Type) (s : setup V B T Kv M Sh) (it : integrator V) (result : list M) (l : local V),
  (forall v es f shA shB dof, length result <> length es -> integrateCpu s it v es f shA shB dof result l = Throws) /\
  (forall ps testSh trialSh, length result <> length ps -> integratePairsCpu s it ps testSh trialSh result l = Throws).
Proof.
  intros V B T Kv M Sh s it result l. split.
  - intros v es f shA shB dof N. unfold integrateCpu. now apply Nat.eqb_neq in N as ->.
  - intros ps testSh trialSh N. unfold integratePairsCpu. now apply Nat.eqb_neq in N as ->.
Qed.
(** a small instance: geometry = numbers, everything read is declared *)
Definition toy : setup nat nat nat nat nat nat :=
  Setup 1 1 (fun e f => match f with Globals => 10 * e | Normals => 7 | _ => 1 end) (fun e f => match f with Globals => 100 * e | _ => 2 end)
    (fun sd sh dof => match dof with None => sh | Some d => d end)
    [Globals] [Globals] (fun b g => match g Globals with Some v => b + v | None => 0 end) (fun b g => match g Globals with Some v => b * v | None => 0 end)
    [Globals; Normals] [Globals] (fun t r => match t Normals, r Globals with Some a, Some b => a * b | _, _ => 0 end)
    [] [] (fun _ _ a b k => a + b + k).
Example C116_example : honest toy /\ localMatrix toy 1 2 3 None 4 None <> localMatrix toy 2 1 3 None 4 None.
Proof.
  split; [|cbn; discriminate]. unfold honest, readsOnly. cbn. split; [|split; [|split; [|split; [|split]]]]; try reflexivity.
  - intros b g g' E. now rewrite (E Globals) by (now left).
  - intros b g g' E. now rewrite (E Globals) by (now left).
  - intros b g g' E. now rewrite (E Normals) by (right; now left).
  - intros b g g' E. now rewrite (E Globals) by (now left).
Qed.

(** C117: the nonseparable integrator's shared basis data, for any number of threads and any
    interleaving: every returned reference is a live object holding the values of its shapeset, all
    calls for one shapeset return the same object, and when no call is in progress the objects alive
    are exactly those of the map, which the destructor deletes once each *)
Theorem C117_basis_data_cache :
  forall (Sh B : Type) (sh_eqb : Sh -> Sh -> bool) (eval : Sh -> B), (forall a b, sh_eqb a b = true <-> a = b) ->
  forall c, creach sh_eqb eval c ->
  (forall k p, In (k, p) (c_returned c) -> c_heap c p = Some (eval k)) /\
  (forall k p p', In (k, p) (c_returned c) -> In (k, p') (c_returned c) -> p = p') /\
  (forall k k' p, In (k, p) (c_returned c) -> In (k', p) (c_returned c) -> k = k') /\
  ((forall i, c_threads c i = Idle Sh) ->
     (forall p, c_heap c p <> None <-> In p (map snd (c_map c))) /\
     exists h, destroy (c_map c) (c_heap c) = Ok h /\ forall p, h p = None).
Proof.
  intros Sh B sh_eqb eval E c R. pose proof (creach_inv E R) as I. destruct I as [K P L Q Q2 Rt G F].
  split; [|split; [|split]].
  - intros k p I. apply Rt in I. now apply L in I.
  - intros k p p' I I'. apply Rt in I, I'. revert I I'. generalize (c_map c) K. clear. intros m. induction m as [|[a b] m IH]; cbn; [tauto|].
    intros N. inversion N as [|? ? N1 N2]; subst. intros [X|X] [Y|Y].
    + congruence.
    + injection X as -> ->. exfalso. apply N1. apply in_map_iff. now exists (k, p').
    + injection Y as -> ->. exfalso. apply N1. apply in_map_iff. now exists (k, p).
    + now apply IH.
  - intros k k' p I I'. apply Rt in I, I'. revert I I'. generalize (c_map c) P. clear. intros m. induction m as [|[a b] m IH]; cbn; [tauto|].
    intros N. inversion N as [|? ? N1 N2]; subst. intros [X|X] [Y|Y].
    + congruence.
    + injection X as -> ->. exfalso. apply N1. apply in_map_iff. now exists (k', p).
    + injection Y as -> ->. exfalso. apply N1. apply in_map_iff. now exists (k, p).
    + now apply IH.
  - intros Z. assert (HI : forall p, c_heap c p <> None <-> In p (map snd (c_map c))).
    { intros p. split.
      - intros N. destruct (c_heap c p) eqn:X; [|congruence]. destruct (G _ _ X) as [Y|(i & k & Y)]; [exact Y|]. now rewrite Z in Y.
      - intros Y. apply in_map_iff in Y. destruct Y as ([k p'] & <- & Y). apply L in Y. destruct Y as [Y _]. cbn. now rewrite Y. }
    split; [exact HI|]. destruct (@destroy_ok Sh B (c_map c) P (c_heap c)) as (h & D & S).
    { intros k p Y. apply L in Y. destruct Y as [-> _]. discriminate. }
    exists h. split; [exact D|]. intros p. rewrite S. destruct (existsb (Nat.eqb p) (map snd (c_map c))) eqn:X; [reflexivity|].
    destruct (c_heap c p) eqn:Y; [|reflexivity]. exfalso. assert (In p (map snd (c_map c))) as W by (apply HI; congruence).
    assert (existsb (Nat.eqb p) (map snd (c_map c)) = true) by (apply existsb_exists; exists p; split; [exact W|apply Nat.eqb_refl]). congruence.
Qed.
(** two threads race for the same shapeset *)
Example C117_example : exists c, creach Nat.eqb (fun k => k + 100) c /\ c_returned c = [(5, 0); (5, 0)] /\ c_heap c 1 = None.
Proof.
  eexists. split; [|split].
  - eapply creach_step; [eapply creach_step; [eapply creach_step; [eapply creach_step; [apply creach_init|]|]|]|].
    + apply (@step_miss nat nat Nat.eqb _ _ 0 5); reflexivity.
    + apply (@step_miss nat nat Nat.eqb _ _ 1 5); reflexivity.
    + apply (@step_insert nat nat Nat.eqb _ _ 0 5 0); reflexivity.
    + apply (@step_lost nat nat Nat.eqb _ _ 1 5 1 0); reflexivity.
  - reflexivity.
  - reflexivity.
Qed.
(** and the local matrices of the nonseparable integrator, when caches hold right values and other
    threads insert right values only *)
Theorem C117_local_matrices :
  forall (V B T Kv M Sh : Type) (s : setup V B T Kv M Sh) (sh_eqb : Sh -> Sh -> bool), honest s -> 0 < testPoints s -> 0 < trialPoints s -> (forall a b, sh_eqb a b = true <-> a = b) ->
  forall (l : local V) (result : list M) (testCache trialCache : basisCache B Sh) others1 others2 ps testSh trialSh,
  let right sd (c : basisCache B Sh) := forall k b, cacheFind sh_eqb c k = Some b -> b = basisEval s sd k None in
  right TEST testCache -> right TRIAL trialCache -> (forall c, right TEST c -> right TEST (others1 c)) -> (forall c, right TRIAL c -> right TRIAL (others2 c)) ->
  length result = length ps ->
  exists l' c1 c2, nsIntegratePairs s sh_eqb ps testSh trialSh testCache trialCache others1 others2 result l =
    Ok (map (fun p => localMatrix s (fst p) (snd p) testSh None trialSh None) ps, l', c1, c2) /\ right TEST c1 /\ right TRIAL c2.
Proof.
  intros V B T Kv M Sh s sh_eqb H P Q E l result tc rc o1 o2 ps tsh rsh right R1 R2 O1 O2 L.
  assert (FA : forall (c : basisCache B Sh) (k : Sh) (b : B) (k' : Sh), cacheFind sh_eqb (c ++ [(k', b)]) k = match cacheFind sh_eqb c k with Some x => Some x | None => if sh_eqb k k' then Some b else None end).
  { intros c k b k'. induction c as [|[a d] c IH]; cbn; [reflexivity|]. destruct (sh_eqb k a); [reflexivity|exact IH]. }
  assert (BD : forall sd (k : Sh) (c : basisCache B Sh) (o : basisCache B Sh -> basisCache B Sh), right sd c -> (forall c, right sd c -> right sd (o c)) ->
     fst (basisData s sh_eqb sd k c o) = Some (basisEval s sd k None) /\ right sd (snd (basisData s sh_eqb sd k c o))).
  { intros sd k c o R O. unfold basisData. destruct (cacheFind sh_eqb c k) as [b|] eqn:X; cbn [fst snd].
    - split; [|exact R]. f_equal. now apply R.
    - unfold cacheInsert. destruct (cacheFind sh_eqb (o c) k) as [b|] eqn:Y.
      + split; [|now apply O]. rewrite Y. f_equal. now apply (O c R).
      + rewrite FA, Y. assert (sh_eqb k k = true) as Z by now apply E. rewrite Z. split; [reflexivity|].
        intros k' b'. rewrite FA. destruct (cacheFind sh_eqb (o c) k') as [x|] eqn:W; [intros [= <-]; now apply (O c R)|].
        destruct (sh_eqb k' k) eqn:U; [|discriminate]. apply E in U. subst. now intros [= <-]. }
  destruct (BD TEST tsh tc o1 R1 O1) as [A1 A2], (BD TRIAL rsh rc o2 R2 O2) as [A3 A4].
  unfold nsIntegratePairs. rewrite L, Nat.eqb_refl. assert (P' : (testPoints s =? 0) = false) by (apply Nat.eqb_neq; lia). rewrite P'. cbn [negb orb].
  destruct ps as [|p ps].
  - destruct result; [|discriminate]. exists l, tc, rc. cbn. auto.
  - cbn [length Nat.eqb]. rewrite A1, A3.
    assert (LP : forall qs l0, exists l', loopPairs s (@noCache V) (basisEval s TEST tsh None) (basisEval s TRIAL rsh None) qs l0 = Ok (map (fun p => localMatrix s (fst p) (snd p) tsh None rsh None) qs, l')).
    { clear - H. induction qs as [|[e f] qs IH]; intros l0; [now exists l0|]. cbn [loopPairs]. unfold testData, trialData, noCache. cbn [i_cached bind fst snd].
      destruct (IH (Local (getData (testGeomDeps s) (testElement s e) (l_test l0)) (getData (trialGeomDeps s) (trialElement s f) (l_trial (Local (getData (testGeomDeps s) (testElement s e) (l_test l0)) (l_trial l0)))))) as (l' & X).
      unfold noCache in X. cbn [l_test l_trial] in *. rewrite X. cbn [bind fst snd map]. exists l'. f_equal. f_equal. f_equal.
      erewrite (integral_local H) by apply getData_agrees. reflexivity. }
    destruct (LP (p :: ps) l) as (l' & X). rewrite X. cbn [bind fst snd]. now exists l', (snd (basisData s sh_eqb TEST tsh tc o1)), (snd (basisData s sh_eqb TRIAL rsh rc o2)).
Qed.

(** C118: the three ways of integrating potentials return the local matrices of the point-element
    pairs; a selected component is that row *)
Theorem C118_potential_matrices :
  forall (V B T Kv M Sh : Type) (s : psetup V B T Kv M Sh), phonest s -> 0 < quadPoints s ->
  (forall f, In f (pkernelPointDeps s) -> f = Globals) ->
  forall (whole : nat -> field -> V), (forall i, whole i Globals = pointGlobals s i) ->
  forall (result : list M),
  (forall points e sh dof, length result = length points -> integratePoints s points e sh dof result = Ok (map (fun i => pointMatrix s i e sh dof whole) points)) /\
  (forall i es sh, length result = length es -> integrateElements s i None es sh result = Ok (map (fun e => pointMatrix s i e sh None whole) es)) /\
  (forall i c es sh, length result = length es -> integrateElements s i (Some c) es sh result = Ok (map (fun e => prow s c (pointMatrix s i e sh None whole)) es)) /\
  (forall ps sh, length result = length ps -> integratePointElements s ps sh result = Ok (map (fun p => pointMatrix s (fst p) (snd p) sh None whole) ps)).
Proof.
  intros V B T Kv M Sh s (H1 & H2 & H3 & H4) P D whole W result.
  assert (P' : (quadPoints s =? 0) = false) by (apply Nat.eqb_neq; lia).
  assert (C : forall i e sh dof g, agrees (ptrialDeps s) g (element s e) ->
     pintegral s g (ptrans s (pbasis s sh dof) g) (pkernels s (pointData s i) g) = pointMatrix s i e sh dof whole).
  { intros i e sh dof g A. unfold pointMatrix, ptrialDeps in *.
    rewrite (H1 _ g (complete (element s e))) by (intros x I; apply A; apply in_or_app; now left).
    rewrite (H3 _ g (complete (element s e))) by (intros x I; apply A; apply in_or_app; right; apply in_or_app; now left).
    rewrite (H4 _ _ g (complete (element s e))) by (intros x I; apply A; apply in_or_app; right; apply in_or_app; now right).
    rewrite (H2 _ (pointData s i) (complete (whole i))); [reflexivity|]. intros x I. apply D in I. subst. cbn. unfold complete. now rewrite W. }
  assert (LE : forall i c sh es g, loopElements s i c sh es g = map (fun e => match c with None => pointMatrix s i e sh None whole | Some k => prow s k (pointMatrix s i e sh None whole) end) es).
  { intros i c sh. induction es as [|e es IH]; intros g; [reflexivity|]. cbn [loopElements map]. rewrite IH, (C i e) by apply getData_agrees. reflexivity. }
  assert (LPt : forall sh ps g, loopPointElements s sh ps g = map (fun p => pointMatrix s (fst p) (snd p) sh None whole) ps).
  { intros sh. induction ps as [|[i e] ps IH]; intros g; [reflexivity|]. cbn [loopPointElements map fst snd]. rewrite IH, (C i e) by apply getData_agrees. reflexivity. }
  split; [|split; [|split]].
  - intros points e sh dof L. unfold integratePoints. rewrite L, Nat.eqb_refl, P', orb_false_r. cbn [negb].
    destruct points as [|i points]; [destruct result; [reflexivity|discriminate]|]. cbn [length Nat.eqb]. f_equal. apply map_ext. intros j. apply C, getData_agrees.
  - intros i es sh L. unfold integrateElements. rewrite L, Nat.eqb_refl, P', orb_false_r. cbn [negb].
    destruct es as [|e es]; [destruct result; [reflexivity|discriminate]|]. cbn [length Nat.eqb]. now rewrite LE.
  - intros i c es sh L. unfold integrateElements. rewrite L, Nat.eqb_refl, P', orb_false_r. cbn [negb].
    destruct es as [|e es]; [destruct result; [reflexivity|discriminate]|]. cbn [length Nat.eqb]. now rewrite LE.
  - intros ps sh L. unfold integratePointElements. rewrite L, Nat.eqb_refl, P', orb_false_r. cbn [negb].
    destruct ps as [|p ps]; [destruct result; [reflexivity|discriminate]|]. cbn [length Nat.eqb]. now rewrite LPt.
Qed.
Definition ptoy : psetup nat nat nat nat nat nat :=
  PSetup 1 (fun i => i) (fun e f => match f with Globals => 10 * e | _ => 3 end) (fun sh _ => sh) [Globals] (fun b g => match g Globals with Some v => b + v | None => 0 end)
    [Globals] [Normals] (fun t r => match t Globals, r Normals with Some a, Some b => a * b | _, _ => 0 end) [] (fun _ a k => a + k) (fun c m => m + c).
Example C118_example : phonest ptoy /\ integrateElements ptoy 2 (Some 1) [4; 5] 6 [0; 0] = Ok [53; 63].
Proof.
  split; [|reflexivity]. unfold phonest, readsOnly. cbn. split; [|split; [|split]]; try reflexivity.
  - intros b g g' E. now rewrite (E Globals) by (now left).
  - intros b g g' E. now rewrite (E Globals) by (now left).
  - intros b g g' E. now rewrite (E Normals) by (now left).
Qed.

Print Assumptions C116_local_matrices.
Print Assumptions C116_size_mismatch.
Print Assumptions C117_basis_data_cache.
Print Assumptions C117_local_matrices.
Print Assumptions C118_potential_matrices.
