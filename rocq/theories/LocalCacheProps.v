(** C48: the cache of local matrices of touching elements is transparent. *)
From Coq Require Import Reals ZArith List Bool Lia Lra.
Import ListNotations.
From Verif Require Import Base ComplexR ArrayModel AsmModel SpaceModel QuadModel AccModel AccSpec AccProps LocalCacheModel LocalCacheSpec LocalCacheProofs.
Set Implicit Arguments.

(** C48: an assembler with cache answers every request as one without *)
Theorem cache_transparent : forall (K : star_ring) ao g g' vertexCount testSh trialSh integ integDof setOrder (withCache without : cache K),
  enumerates setOrder -> restricts integ integDof ->
  newAssembler ao g g' vertexCount testSh trialSh integ setOrder true = Ok withCache ->
  newAssembler ao g g' vertexCount testSh trialSh integ setOrder false = Ok without ->
  forall nominal q matrices,
    answer ao g g' testSh trialSh integ integDof setOrder withCache nominal q = Ok matrices <->
    answer ao g g' testSh trialSh integ integDof setOrder without nominal q = Ok matrices.
Proof.
  intros K ao g g' vc tsh ush integ integDof so c1 c0 HS HR H1 H0. injection H0 as <-. cbn in H1.
  apply bind_ok in H1 as (pairs & Hp & H1).
  assert (C : forall nominal fromCache compute pairs r,
    (forall v p, fromCache (integ v p) = compute v p) ->
    evalCore ao g g' tsh ush so c1 nominal fromCache compute pairs = Ok r <-> evalCore ao g g' tsh ush so (noCache K) nominal fromCache compute pairs = Ok r).
  { intros nominal fromCache compute ps r HF. rewrite !core_iff by auto. apply mapRes_ext_iff. intros [e f] _ m.
    unfold value. cbn [fst snd]. destruct (e <? length (sg_corners g)) eqn:Be; [|reflexivity]. destruct (f <? trialCount g g') eqn:Bf; [|reflexivity].
    cbn [andb]. apply Nat.ltb_lt in Bf. replace (findCached (noCache K) e f) with (@Ok (option (mat K)) None) by reflexivity. cbn [bind].
    destruct (@cache_found K ao g g' tsh ush integ so pairs c1 H1 e f Bf) as [E | (d & Hi & Hd & E)]; rewrite E; cbn [bind]; [reflexivity|].
    destruct (@findPairs_touching g g' vc pairs Hp e f Hi) as (-> & ce & cf & v & Ee & Ef & Ve & Vf).
    destruct (@singular_orders ao g e f ce cf (-1)%R d Ee Ef (ex_intro _ v (Logic.conj Ve Vf)) Hd) as (_ & _ & _ & S).
    unfold select. rewrite (S ao nominal eq_refl). cbn [bind]. rewrite HF. reflexivity. }
  assert (P : forall nominal ts us r, evaluatePairs ao g g' tsh ush integ so c1 ts us nominal = Ok r <-> evaluatePairs ao g g' tsh ush integ so (noCache K) ts us nominal = Ok r).
  { intros. apply C. auto. }
  assert (S : forall nominal e f r, evaluateSingle ao g g' tsh ush integ so c1 e f nominal = Ok r <-> evaluateSingle ao g g' tsh ush integ so (noCache K) e f nominal = Ok r).
  { intros. unfold evaluateSingle. rewrite !bind_ok. split; intros (l & Hl & X); exists l; (split; [apply P; auto | auto]). }
  intros nominal [cv As B [b|] | ts us | e f | ts us] r; cbn [answer].
  - apply C. intros v p. destruct (HR b v p) as (R1 & R2). destruct cv; symmetry; auto.
  - apply C. auto.
  - apply P.
  - rewrite !bind_ok. split; intros (l & Hl & X); exists l; (split; [apply S; auto | auto]).
  - unfold evaluateList. destruct (negb _); [reflexivity|]. apply mapRes_ext_iff. intros [e f] _ m. apply S.
Qed.

(** ... and building it never leaves the cache array, provided touching elements can be integrated *)
Theorem cache_builds : forall (K : star_ring) ao g g' vertexCount testSh trialSh (integ : variant -> nat * nat -> mat K) setOrder,
  Forall (Forall (fun c => c < Z.of_nat vertexCount)%Z) (sg_corners g) ->
  (forall e f, touching g e f -> exists d, quadratureDescriptor ao g None e f (-1) = Ok d) ->
  exists c, newAssembler ao g g' vertexCount testSh trialSh integ setOrder true = Ok c.
Proof.
  intros K ao g g' vc tsh ush integ so HV HD. cbn.
  destruct (@findPairs_total g g' vc HV) as (pairs & Hp). rewrite Hp. cbn [bind]. unfold cacheLocalWeakForms.
  destruct pairs as [|p0 ps] eqn:Ep; [eauto|]. rewrite <- Ep in *.
  assert (T : forall e f, In (e, f) pairs -> g' = None /\ touching g e f) by (eapply findPairs_touching; eauto).
  destruct (@mapRes_total _ _ (fun p => bind (select ao g g' (fst p) (snd p) (-1)) (fun d => Ok (variantOf tsh ush (fst p) (snd p) d))) pairs) as (qs & Hq).
  { intros [e f] Hi. destruct (T _ _ Hi) as (-> & Ht). destruct (HD _ _ Ht) as (d & Hd). cbn [fst snd]. unfold select. rewrite Hd. cbn. eauto. }
  rewrite Hq. cbn [bind].
  destruct (@cacheVariants_total K ao g g' tsh ush integ pairs (maxNeighbours pairs) (combine qs (cacheRows pairs)) (so qs)) with (cols := repeat (repeat (@None nat, @None (mat K)) (maxNeighbours pairs)) (trialCount g g')) as (cols & Hc).
  - intros q nb e f Hi. apply in_combine_r in Hi. split; [eapply cacheRows_lt; eauto|].
    assert (Hi' : In (e, f) pairs). { rewrite <- (cacheRows_snd pairs). change (e, f) with (snd (nb, (e, f))). apply in_map. exact Hi. }
    destruct (T _ _ Hi') as (-> & ce & cf & v & Ee & Ef & _). unfold trialCount, trialOf. apply nth_error_Some. congruence.
  - eapply items_ok; eauto.
  - apply colsOk_init.
  - rewrite Hc. cbn. eauto.
Qed.

(** Witness: three triangles, the first two sharing an edge; the local matrix of a pair depends on the whole variant *)
Definition exAo : accuracy := Accuracy defaultRanges (QOpt true 1).
Definition exInteg (v : variant) (p : nat * nat) : mat Zsr :=
  @Mat Zsr 2 2 (fun i j => (d_test (fst (fst v)) + Z.of_nat (10 * fst p + 100 * snd p) + Z.of_nat (500 * i + 900 * j))%Z).
Definition exIntegDof (cv : callVariant) (b : nat) (v : variant) (p : nat * nat) : res (mat Zsr) :=
  match cv with TEST_TRIAL => colOf (exInteg v p) b | TRIAL_TEST => rowOf (exInteg v p) b end.
Example ex_hyp : enumerates (nodup variant_dec) /\ restricts exInteg exIntegDof.
Proof. split; [intros l; split; [apply NoDup_nodup | intros; apply nodup_In] | split; reflexivity]. Qed.
Example ex_cache : exists c, newAssembler exAo exGeom None 7 (fun _ => 0) (fun _ => 0) exInteg (nodup variant_dec) true = Ok c /\ ca_extent c = 2 /\
  exists m, findCached c 0 1 = Ok (Some m) /\ m_rows m = 2.
Proof.
  eexists. split; [reflexivity|]. split; [reflexivity|]. eexists. split; reflexivity.
Qed.
Example ex_builds : Forall (Forall (fun c => c < Z.of_nat 7)%Z) (sg_corners exGeom) /\
  forall e f, touching exGeom e f -> exists d, quadratureDescriptor exAo exGeom None e f (-1) = Ok d.
Proof.
  split; [repeat constructor|]. intros e f (ce & cf & v & He & Hf & Ve & Vf).
  destruct e as [|[|[|e]]], f as [|[|[|f]]]; try (eexists; reflexivity); exfalso;
    try (cbn in He; destruct e; discriminate); try (cbn in Hf; destruct f; discriminate);
    injection He as <-; injection Hf as <-; cbn in Ve, Vf; intuition lia.
Qed.
Print Assumptions cache_transparent.
Print Assumptions cache_builds.
