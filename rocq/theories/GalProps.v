(** C119-C121: Galerkin matrices of the operators made by the factories *)
From Coq Require Import List Bool Arith Lia ZArith.
Import ListNotations.
From Verif Require Import Base ArrayModel AsmModel MatAlg PyOpModel PyOpSpec PyOpProofs PyBopModel PyBopSpec PyBopProofs GalModel GalSpec GalProofs.
Set Implicit Arguments.
Unset Strict Implicit.

(** C119: whether an operator is assembled on the given spaces, on their super spaces followed by projections, or on
    the non-barycentric versions of the spaces, its weak form is the Galerkin matrix of the form for the spaces asked for *)
Theorem C119_space_preprocessing K (F : functions K) (basis : space -> nat -> F) (pinv : mat K -> mat K) (ip a : F -> F -> K) (at_ : attributes) (op : assembler K) d r t :
  goodInverse pinv -> bilinear ip -> bilinear a -> assemblesForm basis pinv op a -> faithful basis at_ pinv ip d -> faithful basis at_ pinv ip t ->
  forall dense useProjection, exists e, getOperator at_ 2 dense useProjection op d r t = Some e /\
    discretises (galerkin basis ip) pinv e d r t (galerkin basis a d t).
Proof.
  intros HP Bip B A Hd Ht dense up. destruct (getOperator_good (at_ := at_) Bip HP dense up r B A Hd Ht) as (e & E & G & _).
  exists e. split; auto. apply good_discretises; auto.
Qed.
(** projection of a given operator *)
Theorem C119_project K (F : functions K) (basis : space -> nat -> F) (pinv : mat K -> mat K) (ip a : F -> F -> K) (at_ : attributes) (op : assembler K) w r0 s d r t :
  goodInverse pinv -> bilinear ip -> bilinear a -> assemblesForm basis pinv op a -> faithful basis at_ pinv ip w -> faithful basis at_ pinv ip s ->
  finer basis pinv ip d w -> finer basis pinv ip t s ->
  forall dense useProjection e, getOperator at_ 2 dense useProjection op w r0 s = Some e ->
    discretises (galerkin basis ip) pinv (projectOperator e d r t) d r t (galerkin basis a d t).
Proof.
  intros HP Bip B A Hd Ht Fd Ft dense up e E. destruct (getOperator_good (at_ := at_) Bip HP dense up r0 B A Hd Ht) as (e' & E' & G & _).
  rewrite E in E'. injection E' as <-. apply good_discretises; auto. apply (good_project Bip HP r B G Fd Ft).
Qed.

Section Hyp.
Variable K : star_ring.
Variable F : functions K.
Variable basis : space -> nat -> F.
Variable pinv : mat K -> mat K.
Variable at_ : attributes.
Variables ip aV aK : F -> F -> K.
Variables curlOf normalTimes : nat -> F -> F.
Variable ph : physics K.
Notation mass := (galerkin basis ip).
(** the hypersingular form *)
Definition aW : F -> F -> K := curlCurl aV curlOf normalTimes (p_wave2 ph).
(** what the theorems assume of the assembly of the building blocks and of the solver *)
Record setting : Prop := Setting {
  s_inv : goodInverse pinv; s_ip : bilinear ip; s_V : bilinear aV; s_K : bilinear aK; s_W : bilinear aW;
  s_slp : assemblesForm basis pinv (p_slp ph) aV; s_dlp : assemblesForm basis pinv (p_dlp ph) aK; s_hyp : assemblesForm basis pinv (p_hyp ph) aW;
  s_curl : forall c, c < 3 -> assemblesForm basis pinv (p_curl ph c) (fun v u => ip v (curlOf c u));
  s_normal : p_wave2 ph <> None -> forall c, c < 3 -> assemblesForm basis pinv (p_normal ph c) (fun v u => ip v (normalTimes c u)) }.
Hypothesis H : setting.
Notation faithful := (faithful basis at_ pinv ip).
Notation finer := (finer basis pinv ip).
Notation discretises := (discretises mass pinv).
(** w is suitable for the single layer operator under a hypersingular operator on d *)
Definition carries (w d : space) : Prop := invertible pinv (mass w w) /\ componentsIn basis w d curlOf normalTimes (p_wave2 ph).

Lemma layer_slp e w r : GalProofs.good basis pinv ip e w r w (galerkin basis aV w w) -> singleLayerOn basis mass pinv aV e w.
Proof.
  intros [D R T S A C M]. split; auto. destruct (create C []) as (cs & i & N). exists cs, i. exact N.
Qed.
Lemma hyp_good choice (up : bool) d r t : faithful d -> faithful t ->
  match choice with
  | NoSlp => True
  | MakeSlp => faithful (discontinuous at_ d) /\ carries (discontinuous at_ d) d
  | UseSlp s => exists w, singleLayerOn basis mass pinv aV s w /\ carries w d
  end ->
  exists e, hypersingular at_ (p_dense ph) (p_hyp ph) (p_slp ph) (p_curl ph) (p_normal ph) (p_wave2 ph) choice up d r t = Some e /\
    GalProofs.good basis pinv ip e d r t (galerkin basis aW d t).
Proof.
  intros Hd Ht Hc. unfold hypersingular. destruct H as [HP Bip BV BK BW AV AK AW AC AN].
  assert (No : exists e, getOperator at_ 2 (p_dense ph) up (p_hyp ph) d r t = Some e /\ GalProofs.good basis pinv ip e d r t (galerkin basis aW d t)).
  { destruct (getOperator_good (at_ := at_) Bip HP (p_dense ph) up r BW AW Hd Ht) as (e & E & G & _). eauto. }
  destruct (speq d t) eqn:E; [|exact No]. apply speq_eq in E. subst t. destruct choice as [| |s]; auto.
  - destruct Hc as (Fw & I & Co). destruct (getOperator_good (at_ := at_) Bip HP (p_dense ph) true r BV AV Fw Fw) as (s & E & G & _).
    rewrite E. eexists. split; [reflexivity|]. apply (hypFromSlp_good Bip HP r BV (layer_slp G) I AC AN Co).
  - destruct Hc as (w & S & I & Co). eexists. split; [reflexivity|]. apply (hypFromSlp_good Bip HP r BV S I AC AN Co).
Qed.
(** C120: the hypersingular operator is the same whether it is assembled directly, through a single layer operator that
    is made for the purpose, or through a single layer operator the caller gives *)
Theorem C120_hypersingular choice useProjection d r t : faithful d -> faithful t ->
  match choice with
  | NoSlp => True
  | MakeSlp => faithful (discontinuous at_ d) /\ carries (discontinuous at_ d) d
  | UseSlp s => exists w, singleLayerOn basis mass pinv aV s w /\ carries w d
  end ->
  exists e, hypersingular at_ (p_dense ph) (p_hyp ph) (p_slp ph) (p_curl ph) (p_normal ph) (p_wave2 ph) choice useProjection d r t = Some e /\
    discretises e d r t (galerkin basis aW d t).
Proof.
  intros Hd Ht Hc. destruct (hyp_good useProjection r Hd Ht Hc) as (e & E & G). exists e. split; auto. apply good_discretises; auto; apply H.
Qed.
(** a single layer operator from the factory can be given *)
Theorem C120_factory_slp w r e : faithful w -> slpOp at_ ph w r w = Some e -> singleLayerOn basis mass pinv aV e w.
Proof.
  intros Fw E. destruct H as [HP Bip BV BK BW AV AK AW AC AN].
  destruct (getOperator_good (at_ := at_) Bip HP (p_dense ph) true r BV AV Fw Fw) as (e' & E' & G & _). unfold slpOp in E. rewrite E in E'. injection E' as <-.
  eapply layer_slp; eauto.
Qed.

(** the form with test and trial functions exchanged *)
Definition exchanged (a : F -> F -> K) : F -> F -> K := fun v u => a u v.
Definition minus (m : mat K) : mat K := mScale (opp one) m.
Lemma good_exchanged e d r t a r' : GalProofs.good basis pinv ip e d r t (galerkin basis a d t) -> noZero (weakE mass e) ->
  GalProofs.good basis pinv ip (OTrans e r') t r' d (galerkin basis (exchanged a) t d).
Proof. intros G N. apply (good_trans r' G N). Qed.
Lemma bilinear_exchanged a : bilinear a -> bilinear (exchanged a).
Proof. intros B. unfold exchanged. split; intros; apply B; auto. Qed.

(** C121: the four blocks of a multitrace operator on one grid: the weak form of block (i,j) is the Galerkin matrix of
    -K, V, W, K' for the trial functions of column j and the test functions of row i *)
Theorem C121_multitrace_linear lin disc : faithful lin -> faithful disc -> finer lin disc -> carries disc lin ->
  exists e00 e01 e10 e11, multitraceLinear at_ ph lin disc = Some [e00; e01; e10; e11] /\
    discretises e00 lin lin lin (minus (galerkin basis aK lin lin)) /\ discretises e01 lin lin lin (galerkin basis aV lin lin) /\
    discretises e10 lin lin lin (galerkin basis aW lin lin) /\ discretises e11 lin lin lin (galerkin basis (exchanged aK) lin lin).
Proof.
  intros Fl Fd Fi Ca. destruct H as [HP Bip BV BK BW AV AK AW AC AN]. unfold multitraceLinear, slpOp, dlpOp, hypOp.
  destruct (getOperator_good (at_ := at_) Bip HP (p_dense ph) true disc BV AV Fd Fd) as (s & -> & Gs & _). cbn [oapp].
  destruct (getOperator_good (at_ := at_) Bip HP (p_dense ph) true lin BK AK Fl Fl) as (k & -> & Gk & Nk). cbn [oapp].
  destruct (@hyp_good (UseSlp s) true lin lin lin Fl Fl (ex_intro _ disc (Logic.conj (layer_slp Gs) Ca))) as (h & -> & Gh). cbn [oapp].
  do 4 eexists. split; [reflexivity|].
  split; [apply good_discretises, good_scale; auto|]. split; [apply good_discretises, (good_project Bip HP lin BV Gs Fi Fi); auto|].
  split; apply good_discretises; auto. apply (good_exchanged lin Gk Nk).
Qed.
Theorem C121_multitrace_dual dualSp lin disc base : faithful lin -> faithful disc -> faithful base -> finer lin disc -> finer dualSp disc -> finer dualSp base -> carries base lin ->
  exists e00 e01 e10 e11, multitraceDual at_ ph dualSp lin disc base = Some [e00; e01; e10; e11] /\
    discretises e00 lin lin dualSp (minus (galerkin basis aK lin dualSp)) /\ discretises e01 dualSp lin dualSp (galerkin basis aV dualSp dualSp) /\
    discretises e10 lin dualSp lin (galerkin basis aW lin lin) /\ discretises e11 dualSp dualSp lin (galerkin basis (exchanged aK) dualSp lin).
Proof.
  intros Fl Fd Fb F1 F2 F3 Ca. destruct H as [HP Bip BV BK BW AV AK AW AC AN]. unfold multitraceDual, slpOp, dlpOp, hypOp.
  destruct (getOperator_good (at_ := at_) Bip HP (p_dense ph) true base BV AV Fb Fb) as (s & -> & Gs & _). cbn [oapp].
  destruct (getOperator_good (at_ := at_) Bip HP (p_dense ph) true disc BK AK Fd Fd) as (k & -> & Gk & Nk). cbn [oapp].
  destruct (@hyp_good (UseSlp s) true lin dualSp lin Fl Fl (ex_intro _ base (Logic.conj (layer_slp Gs) Ca))) as (h & -> & Gh). cbn [oapp].
  do 4 eexists. split; [reflexivity|].
  split; [apply good_discretises; auto; apply good_scale, (good_project Bip HP lin BK Gk F1 F2)|].
  split; [apply good_discretises, (good_project Bip HP lin BV Gs F3 F3); auto|].
  split; apply good_discretises; auto. apply (good_project Bip HP dualSp (bilinear_exchanged BK) (good_exchanged dualSp Gk Nk) F2 F1).
Qed.
(** ... and from one grid to another *)
Theorem C121_multitrace_target_linear src tgt : faithful src -> faithful tgt ->
  exists e00 e01 e10 e11, multitraceLinearTarget at_ ph src tgt = Some [e00; e01; e10; e11] /\
    discretises e00 src tgt tgt (minus (galerkin basis aK src tgt)) /\ discretises e01 src tgt tgt (galerkin basis aV src tgt) /\
    discretises e10 src tgt tgt (galerkin basis aW src tgt) /\ discretises e11 src tgt tgt (galerkin basis (exchanged aK) src tgt).
Proof.
  intros Fs Ft. destruct H as [HP Bip BV BK BW AV AK AW AC AN]. unfold multitraceLinearTarget, slpOp, dlpOp, hypOp.
  destruct (getOperator_good (at_ := at_) Bip HP (p_dense ph) true tgt BV AV Fs Ft) as (s & -> & Gs & _). cbn [oapp].
  destruct (getOperator_good (at_ := at_) Bip HP (p_dense ph) true tgt BK AK Fs Ft) as (k & -> & Gk & Nk). cbn [oapp].
  destruct (getOperator_good (at_ := at_) Bip HP (p_dense ph) true src BK AK Ft Fs) as (k' & -> & Gk' & Nk'). cbn [oapp].
  destruct (@hyp_good NoSlp true src tgt tgt Fs Ft Logic.I) as (h & -> & Gh). cbn [oapp].
  do 4 eexists. split; [reflexivity|]. split; [apply good_discretises, good_scale; auto|].
  split; [apply good_discretises; auto|]. split; apply good_discretises; auto. apply (good_exchanged tgt Gk' Nk').
Qed.
Theorem C121_multitrace_target_dual srcDual srcLin tgtDual tgtLin : faithful srcDual -> faithful srcLin -> faithful tgtDual -> faithful tgtLin ->
  exists e00 e01 e10 e11, multitraceDualTarget at_ ph srcDual srcLin tgtDual tgtLin = Some [e00; e01; e10; e11] /\
    discretises e00 srcLin tgtLin tgtDual (minus (galerkin basis aK srcLin tgtDual)) /\ discretises e01 srcDual tgtLin tgtDual (galerkin basis aV srcDual tgtDual) /\
    discretises e10 srcLin tgtDual tgtLin (galerkin basis aW srcLin tgtLin) /\ discretises e11 srcDual tgtDual tgtLin (galerkin basis (exchanged aK) srcDual tgtLin).
Proof.
  intros F1 F2 F3 F4. destruct H as [HP Bip BV BK BW AV AK AW AC AN]. unfold multitraceDualTarget, slpOp, dlpOp, hypOp.
  destruct (getOperator_good (at_ := at_) Bip HP (p_dense ph) true tgtLin BV AV F1 F3) as (s & -> & Gs & _). cbn [oapp].
  destruct (getOperator_good (at_ := at_) Bip HP (p_dense ph) true tgtLin BK AK F2 F3) as (k & -> & Gk & Nk). cbn [oapp].
  destruct (getOperator_good (at_ := at_) Bip HP (p_dense ph) true srcLin BK AK F4 F1) as (k' & -> & Gk' & Nk'). cbn [oapp].
  destruct (@hyp_good NoSlp true srcLin tgtDual tgtLin F2 F4 Logic.I) as (h & -> & Gh). cbn [oapp].
  do 4 eexists. split; [reflexivity|]. split; [apply good_discretises, good_scale; auto|].
  split; [apply good_discretises; auto|]. split; apply good_discretises; auto. apply (good_exchanged tgtDual Gk' Nk').
Qed.
(** the pairs that share one single layer operator *)
Theorem C121_pair_linear lin disc : faithful lin -> faithful disc -> finer lin disc -> carries disc lin ->
  exists v w, slpAndHypLinear at_ ph lin disc = Some [v; w] /\
    discretises v lin lin lin (galerkin basis aV lin lin) /\ discretises w lin lin lin (galerkin basis aW lin lin).
Proof.
  intros Fl Fd Fi Ca. destruct H as [HP Bip BV BK BW AV AK AW AC AN]. unfold slpAndHypLinear, slpOp, hypOp.
  destruct (getOperator_good (at_ := at_) Bip HP (p_dense ph) true disc BV AV Fd Fd) as (s & -> & Gs & _). cbn [oapp].
  destruct (@hyp_good (UseSlp s) true lin lin lin Fl Fl (ex_intro _ disc (Logic.conj (layer_slp Gs) Ca))) as (h & -> & Gh). cbn [oapp].
  do 2 eexists. split; [reflexivity|].
  split; apply good_discretises; auto. apply (good_project Bip HP lin BV Gs Fi Fi).
Qed.
Theorem C121_pair_dual dualSp lin base : faithful lin -> faithful base -> finer dualSp base -> carries base lin ->
  exists v w, slpAndHypDual at_ ph dualSp lin base = Some [v; w] /\
    discretises v dualSp lin dualSp (galerkin basis aV dualSp dualSp) /\ discretises w lin dualSp lin (galerkin basis aW lin lin).
Proof.
  intros Fl Fd Fi Ca. destruct H as [HP Bip BV BK BW AV AK AW AC AN]. unfold slpAndHypDual, slpOp, hypOp.
  destruct (getOperator_good (at_ := at_) Bip HP (p_dense ph) true base BV AV Fd Fd) as (s & -> & Gs & _). cbn [oapp].
  destruct (@hyp_good (UseSlp s) true lin dualSp lin Fl Fl (ex_intro _ base (Logic.conj (layer_slp Gs) Ca))) as (h & -> & Gh). cbn [oapp].
  do 2 eexists. split; [reflexivity|].
  split; apply good_discretises; auto. apply (good_project Bip HP lin BV Gs Fi Fi).
Qed.
End Hyp.

(** Non-vacuity: piecewise constants on two elements, the constant function in it, its barycentric version *)
Definition planeEx : functions Zsr := @Functions Zsr (Z * Z) (0, 0)%Z (fun u v => (fst u + fst v, snd u + snd v)%Z) (fun c u => (c * fst u, c * snd u)%Z) eq.
Definition discEx : space := Sp 0 1 0 2.
Definition linEx : space := Sp 0 2 0 1.
Definition baryEx : space := Sp 0 3 0 1.
Definition basisEx (s : space) (i : nat) : planeEx :=
  if s_kind s =? 1 then (if i =? 0 then (1, 0)%Z else (0, 1)%Z) else (1, 1)%Z.
Definition formEx (p q r s : Z) (v u : planeEx) : Zsr := (p * fst v * fst u + q * fst v * snd u + r * snd v * fst u + s * snd v * snd u)%Z.
Definition ipEx := formEx 1 0 0 1.
Definition aVEx := formEx 3 1 1 3.
Definition aKEx := formEx 0 1 2 0.
Definition curlEx (c : nat) (u : planeEx) : planeEx := (fst u - Z.of_nat c * snd u, snd u)%Z.
Definition normalEx (c : nat) (u : planeEx) : planeEx := (Z.of_nat c * fst u, snd u)%Z.
Definition ofForm (a : planeEx -> planeEx -> Zsr) : assembler Zsr := fun d t => EDense (galerkin basisEx a d t).
Definition phEx : physics Zsr := @Physics Zsr (ofForm aVEx) (ofForm aKEx) (ofForm (curlCurl aVEx curlEx normalEx (Some (-4)%Z : option Zsr)))
  (fun c => ofForm (fun v u => ipEx v (curlEx c u))) (fun c => ofForm (fun v u => ipEx v (normalEx c u))) (Some (-4)%Z) false.
Definition atEx : attributes := Attributes (fun s => if s_kind s =? 2 then discEx else s) (fun s => if s_kind s =? 3 then linEx else s)
  (fun _ => discEx) (fun s => s_kind s =? 3) (fun s => s_kind s =? 3).
Ltac zring := change (car Zsr) with Z in *; match goal with |- @eq _ ?a ?b => cut (Z.sub a b = 0%Z); [let X := fresh in intros X; exact (proj1 (Z.sub_move_0_r a b) X)|ring] end.
Lemma form_bilinear p q r s : bilinear (formEx p q r s).
Proof. unfold formEx. split; cbn; intros; subst; try reflexivity; zring. Qed.
Example C120_setting : setting basisEx (@mT Zsr) ipEx aVEx aKEx curlEx normalEx phEx.
Proof.
  assert (A : forall a, assemblesForm basisEx (@mT Zsr) (ofForm a) a).
  { intros a d t. split; [exact Logic.I|]. eexists. split; [reflexivity|apply meq_refl]. }
  split; try apply form_bilinear; try (intros; apply A).
  - intros a. split; [reflexivity|]. split; [reflexivity|]. split; apply meq_refl.
  - unfold aW, curlCurl, aVEx, formEx. split; cbn -[Z.mul Z.add Z.sub Z.of_nat]; intros; subst; try reflexivity. all: zring.
Qed.
Lemma mass_disc : invertible (@mT Zsr) (galerkin basisEx ipEx discEx discEx).
Proof.
  split; (split; [|split]; try reflexivity); cbn; intros [|[|i]] [|[|j]]; try lia; reflexivity.
Qed.
Lemma lin_disc : subspace basisEx linEx discEx.
Proof. exists (fun _ _ => 1%Z). intros j Hj. reflexivity. Qed.
Example C121_faithful : faithful basisEx atEx (@mT Zsr) ipEx linEx /\ faithful basisEx atEx (@mT Zsr) ipEx discEx /\ faithful basisEx atEx (@mT Zsr) ipEx baryEx /\
  finer basisEx (@mT Zsr) ipEx linEx discEx /\ carries basisEx (@mT Zsr) ipEx curlEx normalEx phEx discEx linEx.
Proof.
  assert (F1 : finer basisEx (@mT Zsr) ipEx linEx discEx) by (right; split; [apply mass_disc|apply lin_disc]).
  split; [split; [exact F1|discriminate]|]. split; [split; [left; reflexivity|discriminate]|].
  split; [split; [left; reflexivity|intros _ _; split; [split; [reflexivity|reflexivity]|split; [reflexivity|exact F1]]]|].
  split; auto. split; [apply mass_disc|]. intros c Hc. split.
  - exists (fun i _ => if i =? 0 then (1 - Z.of_nat c)%Z else 1%Z). split; [reflexivity|]. intros j Hj.
    destruct c as [|[|[|c]]]; try lia; reflexivity.
  - intros _. exists (fun i _ => if i =? 0 then Z.of_nat c else 1%Z). split; [reflexivity|]. intros j Hj.
    destruct c as [|[|[|c]]]; try lia; reflexivity.
Qed.
(** the two ways to assemble the hypersingular operator on the constant function *)
Example C120_case : m_at (galerkin basisEx (aW aVEx curlEx normalEx phEx) linEx linEx) 0 0 = (-105)%Z.
Proof. reflexivity. Qed.
Print Assumptions C119_space_preprocessing.
Print Assumptions C119_project.
Print Assumptions C120_hypersingular.
Print Assumptions C120_factory_slp.
Print Assumptions C121_multitrace_linear.
Print Assumptions C121_multitrace_dual.
Print Assumptions C121_multitrace_target_linear.
Print Assumptions C121_multitrace_target_dual.
Print Assumptions C121_pair_linear.
Print Assumptions C121_pair_dual.
