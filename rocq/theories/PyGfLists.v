From Coq Require Import List Arith Bool Lia.
Import ListNotations.
From Verif Require Import Base ArrayModel AsmModel QuadModel MatAlg PyOpModel LocalCacheProofs PyOpSpec PyBopModel PyBlockModel PyBlockSpec PyOpProofs PyBopProofs PyBlockProofs PyGfModel PyGfSpec PyGfProofs.
Set Implicit Arguments.

Section P.
  Variable K : star_ring.
  Variable mass : space -> space -> mat K.
  Variable pinv : mat K -> mat K.
  Notation vec := (mat K).
  Hypothesis HM : forall s t, m_rows (mass s t) = s_dofs t /\ m_cols (mass s t) = s_dofs s.
  Hypothesis HG : goodInverse pinv.
  Variable P : space -> space -> Prop.
  Notation ginv := (ginv mass pinv P).
  Definition picks (l : list (fn K)) (is : list nat) (fs : list (fn K)) : Prop := Forall2 (fun i f => nth_error l i = Some f) is fs.
  Definition goodVec (f : fn K) (v : vec) : Prop := vecFor (fst f) (snd f) /\ meq v (snd f).

  Lemma each_ok (F : nat -> gcomp K vec) l : (forall i f h, Forall2 ginv h l -> nth_error l i = Some f ->
      exists a h', F i h = (h', Ok a) /\ goodVec f a /\ Forall2 ginv h' l) ->
    forall is fs h, picks l is fs -> Forall2 ginv h l -> exists vs h', eachGf F is h = (h', Ok vs) /\ Forall2 goodVec fs vs /\ Forall2 ginv h' l.
  Proof.
    intros HF is fs h PK. revert h. induction PK as [|i f is fs E PK IH]; intros h I.
    - exists [], h. cbn. auto.
    - destruct (HF i f h I E) as (a & h1 & Q & G & I1). destruct (IH h1 I1) as (vs & h2 & Q2 & G2 & I2).
      exists (a :: vs), h2. cbn [eachGf]. unfold gthen, gret. rewrite Q. fold (@gthen K). rewrite Q2. auto.
  Qed.
  Lemma assign_ok n (v : vec) : m_rows v = n -> assign n v = Ok v.
  Proof. intros E. unfold assign. rewrite E, Nat.eqb_refl. reflexivity. Qed.
  Lemma coeff_each l i f h : Forall2 ginv h l -> nth_error l i = Some f ->
    exists a h', coefficients mass pinv i h = (h', Ok a) /\ goodVec f a /\ Forall2 ginv h' l.
  Proof.
    intros I E. destruct f as [s v]. destruct (@coefficients_ok K mass pinv HM HG P h l i s v I E) as (c & h' & Q & M & I' & _).
    exists c, h'. split; [assumption|]. split; [|assumption]. split; [|assumption]. destruct (F2_nth I _ E) as (g & _ & _ & V & _). exact V.
  Qed.

  Definition fdims (fs : list (fn K)) : list nat := map (fun f => s_dofs (fst f)) fs.
  Lemma good_rows fs vs : Forall2 goodVec fs vs -> map (@m_rows K) vs = fdims fs.
  Proof. induction 1 as [|f v fs vs [[V _] (R & _)] _ IH]; cbn; auto. f_equal; [congruence|assumption]. Qed.
  Lemma stack_ok dims vs : map (@m_rows K) vs = dims -> (forall v, In v vs -> m_cols v = 1) -> isStack dims vs (stacked vs).
  Proof.
    intros E C. split; [cbn; congruence|]. split; [reflexivity|]. split; [rewrite <- E, map_length; reflexivity|].
    intros k v N. assert (k < length dims) as L by (rewrite <- E, map_length; apply nth_error_Some; congruence).
    pose proof (off_bound dims L) as OB. assert (nth k dims 0 = m_rows v) as NR.
    { rewrite <- E. apply nth_error_nth. rewrite nth_error_map, N. reflexivity. }
    split; [|split].
    - cbn [rowSlice m_rows stacked]. rewrite E. lia.
    - cbn. symmetry. apply C. eapply nth_error_In. eassumption.
    - cbn [rowSlice m_rows m_cols m_at stacked]. rewrite E. intros a b Ha Hb. rewrite stackAt_ok with (R := dims) by (auto; lia).
      erewrite nth_error_nth by eassumption. reflexivity.
  Qed.
  Lemma isStack_meq dims vs ws x : isStack dims vs x -> Forall2 (@meq K) vs ws -> isStack dims ws x.
  Proof.
    intros (A & B & C & D) F. split; [assumption|]. split; [assumption|]. split.
    - rewrite <- C. clear - F. induction F; cbn; congruence.
    - intros k w N. destruct (F2_nth F _ N) as (v & Nv & M). eapply meq_trans; [apply D; eassumption|assumption].
  Qed.
  Lemma good_stack fs vs : Forall2 goodVec fs vs -> isStack (fdims fs) (map snd fs) (stacked vs).
  Proof.
    intros G. apply isStack_meq with (vs := vs).
    - apply stack_ok; [apply good_rows; assumption|]. intros v I. apply In_nth_error in I as (k & N).
      destruct (F2_nth G _ N) as ([s w] & _ & [_ V2] & (_ & C & _)). congruence.
    - clear - G. induction G as [|f v fs vs [_ M] _ IH]; cbn; constructor; auto.
  Qed.

  Lemma coeffList_ok l is fs h : picks l is fs -> Forall2 ginv h l ->
    exists x h', coefficientsOfList mass pinv is h = (h', Ok x) /\ isStack (fdims fs) (map snd fs) x /\ Forall2 ginv h' l.
  Proof.
    intros PK I. unfold coefficientsOfList.
    destruct (each_ok (coefficients mass pinv) (l := l) (fun i f h => @coeff_each l i f h) PK I) as (vs & h1 & Q & _ & I1).
    destruct (each_ok (fun i => gthen (coefficients mass pinv i) (fun c h => (h, bind (spaceOf h i) (fun s => assign (s_dofs s) c)))) (l := l)) with (is := is) (fs := fs) (h := h1) as (ws & h2 & Q2 & G & I2); auto.
    { intros i f h0 I0 E. destruct (coeff_each i I0 E) as (a & h' & Qa & Ga & Ia). exists a, h'. unfold gthen. rewrite Qa.
      split; [|auto]. destruct (F2_nth Ia _ E) as (g & Eg & Gs & _). unfold spaceOf. rewrite Eg. cbn [bind]. rewrite Gs.
      destruct Ga as [[V _] (R & _)]. rewrite assign_ok by congruence. reflexivity. }
    exists (stacked ws), h2. unfold gthen at 1. rewrite Q. unfold gthen at 1. rewrite Q2. cbn. split; [reflexivity|]. split; [|assumption]. apply good_stack. assumption.
  Qed.

  Lemma fromCoeffs_ok (x : vec) ss : forall pos gs, listFromCoefficients x pos ss = gs -> length gs = length ss /\
    forall k s, nth_error ss k = Some s -> nth_error gs k = Some (fromCoefficients s None (rowSlice x (pos + off (map s_dofs ss) k) (s_dofs s))).
  Proof.
    induction ss as [|s ss IH]; intros pos gs <-; cbn [listFromCoefficients length].
    - split; [reflexivity|]. intros [|k] s; discriminate.
    - destruct (IH (pos + s_dofs s) _ eq_refl) as [L H]. split; [congruence|]. intros [|k] t; cbn [nth_error].
      + intros [= <-]. unfold off. cbn. rewrite Nat.add_0_r. reflexivity.
      + intros N. cbn [map]. rewrite off_cons, (H _ _ N). do 3 f_equal. lia.
  Qed.

  Lemma projList_ok l : forall is fs ds h, picks l is fs -> length ds = length is -> Forall2 ginv h l ->
    (forall k i d, nth_error is k = Some i -> nth_error ds k = Some d -> safeQuery h i (Some d)) ->
    exists vs h', projectionsOfList mass pinv is ds h = (h', Ok (stacked vs)) /\ length vs = length ds /\ Forall2 ginv h' l /\ keeps h h' /\
      forall k f d v, nth_error fs k = Some f -> nth_error ds k = Some d -> nth_error vs k = Some v -> projOK mass pinv P (fst f) d v (snd f).
  Proof.
    intros is fs ds h PK LD I SQ. unfold projectionsOfList.
    set (go := fix go (l : list (nat * space)) : gcomp K (list vec) := _).
    enough (exists vs h', go (combine is ds) h = (h', Ok vs) /\ length vs = length ds /\ Forall2 ginv h' l /\ keeps h h' /\
      forall k f d v, nth_error fs k = Some f -> nth_error ds k = Some d -> nth_error vs k = Some v -> projOK mass pinv P (fst f) d v (snd f)) as (vs & h' & Q & R).
    { exists vs, h'. unfold gthen. rewrite Q. cbn. split; [reflexivity|exact R]. }
    revert ds h LD I SQ. induction PK as [|i f is fs E PK IH]; intros ds h LD I SQ.
    - destruct ds; [|discriminate]. exists [], h. split; [reflexivity|]. split; [reflexivity|]. split; [assumption|]. split; [apply keeps_refl|]. intros [|k0] f0 d0 v0 N0; discriminate.
    - destruct ds as [|d ds]; [discriminate|]. destruct f as [s v]. cbn [combine].
      destruct (@projections_ok K mass pinv HM P h l i (Some d) s v I E) as (g & p & h1 & Eg & Q & PO & I1 & KP & _).
      { apply (SQ 0); reflexivity. }
      destruct (IH ds h1) as (vs & h2 & Q2 & L & I2 & KP2 & A); auto.
      { intros k j d' N1 N2. eapply keeps_safe; [exact KP|]. apply (SQ (Datatypes.S k)); assumption. }
      exists (p :: vs), h2. split; [|split; [|split; [|split]]].
      + cbn. unfold gthen. rewrite Q. unfold gthen in Q2. rewrite Q2. reflexivity.
      + cbn. congruence.
      + assumption.
      + eapply keeps_trans; eassumption.
      + intros [|k] f' d' w; cbn; [intros [= <-] [= <-] [= <-]; exact PO | apply A].
  Qed.
End P.
