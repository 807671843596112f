(** C91 and C92: blocked boundary operators *)
From Coq Require Import List Arith Bool ZArith Lia.
Import ListNotations.
From Verif Require Import Base ArrayModel AsmModel QuadModel MatAlg PyOpModel LocalCacheProofs PyOpSpec PyOpProofs PyBopModel PyBopSpec PyBopProofs PyBopProps PyBlockModel PyBlockSpec PyBlockProofs PyBlockProps PyBbopModel PyBbopSpec PyBbopProofs PyBbopHist.
Set Implicit Arguments.

(** C91: weak and strong forms are those of the present blocks and do not depend on earlier calls, provided no block is
    assigned after a discretisation that involves it; a plain array of operators can be recomputed at any time. *)
Theorem C91_blocked_cache_partial K (mass : space -> space -> mat K) (pinv : mat K -> mat K) : goodInverse pinv ->
  (forall cs i rc e R C m, setEarly mass cs -> hasValue pinv e R C m ->
     (weakIs mass (nodes (brun mass cs)) i e -> exists o, snd (bweak_form mass rc i (brun mass cs)) = Ok o /\ brealises pinv o R C m) /\
     (strongIs mass (nodes (brun mass cs)) i e -> exists o, snd (bstrong_form mass rc i (brun mass cs)) = Ok o /\ brealises pinv o R C m)) /\
  (forall cs cs' i rc rc', setEarly mass cs -> setEarly mass cs' -> nodes (brun mass cs) = nodes (brun mass cs') ->
     snd (bweak_form mass rc i (brun mass cs)) = snd (bweak_form mass rc' i (brun mass cs')) /\
     snd (bstrong_form mass rc i (brun mass cs)) = snd (bstrong_form mass rc' i (brun mass cs'))) /\
  (forall cs i ops r d c R C m, nth_error (nodes (brun mass cs)) i = Some (MBlk ops r d c) ->
     hasValue pinv (XBlocks (map (map (option_map (@b_disc K))) ops)) R C m ->
     exists o, snd (bweak_form mass true i (brun mass cs)) = Ok o /\ brealises pinv o R C m).
Proof.
  intros G. split; [|split].
  - intros cs i rc e R C m SE V. destruct (C54_blocked_algebra G V) as (o & B & RL). split; intros W; exists o; split; auto; rewrite <- B.
    + apply bweak_history; auto.
    + apply bstrong_history; auto.
  - intros cs cs' i rc rc' SE SE' E. destruct (Nat.lt_ge_cases i (length (nodes (brun mass cs)))) as [L|L].
    + destruct (@weak_ex K mass _ (brun_older mass cs) i L) as (x & W). destruct (@spaces_ex K _ (brun_older mass cs) i L) as (r & d & c & S & _). split.
      * rewrite (bweak_history rc SE W). rewrite E in W. rewrite (bweak_history rc' SE' W). reflexivity.
      * pose proof (SAny S W) as ST. rewrite (bstrong_history rc SE ST). rewrite E in ST. rewrite (bstrong_history rc' SE' ST). reflexivity.
    + assert (N : nth_error (brun mass cs) i = None) by (apply nth_error_None; rewrite <- nodes_length; auto).
      assert (N' : nth_error (brun mass cs') i = None) by (apply nth_error_None; rewrite <- nodes_length, <- E; auto).
      unfold bweak_form, bstrong_form, bstrongWith. cbn [bweakForm]. rewrite N, N'. auto.
  - intros cs i ops r d c R C m N V. destruct (C54_blocked_algebra G V) as (o & B & RL). exists o. split; auto. rewrite <- B. eapply bweak_recompute; eauto.
Qed.

Definition sp1 : space := Sp 0 0 0 1.
Definition oneByOne (z : Z) : blk Zsr := Blk sp1 sp1 sp1 (EDense (@Mat Zsr 1 1 (fun _ _ => z))).
Definition scalarM (z : Z) : mat Zsr := @Mat Zsr 1 1 (fun _ _ => z).
Lemma scalar_value (z : Z) : hasValue (@mT Zsr) (XBlocks [[Some (EDense (scalarM z))]]) [1] [1] (scalarM z).
Proof.
  apply VBlocks with (M := fun _ _ => scalarM z); auto.
  - intros r [<-|[]]. reflexivity.
  - intros [|i] Hi; cbn in Hi; [|lia]. exists 0. eexists. reflexivity.
  - intros [|i] Hi; cbn in Hi; [|lia]. exists 0. eexists. reflexivity.
  - intros [|i] [|j] Hi Hj; cbn in Hi, Hj; try lia. auto.
  - intros [|[|i]] [|[|j]] e H; cbn in H; try discriminate. injection H as <-. cbn. auto.
  - discriminate.
  - split; [reflexivity|]. split; [reflexivity|]. intros [|i] [|j] Hi Hj; cbn in Hi, Hj; try lia. split; [reflexivity|]. split; [reflexivity|]. cbn. intros. reflexivity.
Qed.
Definition progStale : list (bcmd Zsr) := [BNew 1 1; BSet 0 0 0 (oneByOne 1); BWeak false 0; BSet 0 0 0 (oneByOne 2)].
Definition progStaleSum : list (bcmd Zsr) := [BNew 1 1; BSet 0 0 0 (oneByOne 1); @BScl Zsr 0 1%Z; BWeak false 1; BSet 0 0 0 (oneByOne 2)].
Theorem C91_blocked_cache_refuted :
  (** after a block is replaced, weak_form() is still the old one *)
  (exists cs e o a, weakIs massEx (nodes (brun massEx cs)) 0 e /\ hasValue (@mT Zsr) e [1] [1] (scalarM 2) /\
     snd (bweak_form massEx false 0 (brun massEx cs)) = Ok o /\ bAsMatrix (@mT Zsr) o = Ok a /\ ~ meq a (scalarM 2)) /\
  (** and for composite operators even weak_form(recompute=True) is *)
  (exists cs e o a, weakIs massEx (nodes (brun massEx cs)) 1 e /\ hasValue (@mT Zsr) e [1] [1] (mScale (1%Z : Zsr) (scalarM 2)) /\
     snd (bweak_form massEx true 1 (brun massEx cs)) = Ok o /\ bAsMatrix (@mT Zsr) o = Ok a /\ ~ meq a (mScale (1%Z : Zsr) (scalarM 2))).
Proof.
  split.
  - exists progStale. do 3 eexists. split; [eapply WBlk; vm_compute; reflexivity|]. split; [apply (scalar_value 2)|]. split; [vm_compute; reflexivity|]. split; [reflexivity|].
    intros (_ & _ & H). specialize (H 0 0). vm_compute in H. specialize (H (le_n 1) (le_n 1)). discriminate.
  - exists progStaleSum. do 3 eexists. split; [eapply WScaled; [vm_compute; reflexivity|eapply WBlk; vm_compute; reflexivity]|]. split; [apply VScale, (scalar_value 2)|].
    split; [vm_compute; reflexivity|]. split; [reflexivity|].
    intros (_ & _ & H). specialize (H 0 0). vm_compute in H. specialize (H (le_n 1) (le_n 1)). discriminate.
Qed.

(** C92: the strong form is the block diagonal matrix of inverse mass matrices times the weak form, for operators with as
    many rows as columns *)
Theorem C92_blocked_strong_partial K (mass : space -> space -> mat K) (pinv : mat K -> mat K) : goodInverse pinv -> massSized mass ->
  forall cs i rc ran dual c e C m, setEarly mass cs -> hasSpaces (nodes (brun mass cs)) i (map Some ran) (map Some dual) c ->
    length ran = length c -> weakIs mass (nodes (brun mass cs)) i e -> hasValue pinv e (map s_dofs dual) C m ->
    exists D o, isBlockMatrix (map s_dofs ran) (map s_dofs dual)
        (fun p q => if p =? q then pinv (mass (nth p ran (Sp 0 0 0 0)) (nth p dual (Sp 0 0 0 0))) else zeroMat (s_dofs (nth p ran (Sp 0 0 0 0))) (s_dofs (nth q dual (Sp 0 0 0 0)))) D /\
      snd (bstrong_form mass rc i (brun mass cs)) = Ok o /\ brealises pinv o (map s_dofs ran) C (mMul D m).
Proof.
  intros G HM cs i rc ran dual c e C m SE SP LC W V. set (s0 := Sp 0 0 0 0).
  assert (LD : length dual = length ran).
  { assert (L : i < length (nodes (brun mass cs))) by (inversion W; apply nth_error_Some; congruence).
    destruct (@spaces_ex K _ (brun_older mass cs) i L) as (r & d & c' & S' & E). destruct (spaces_det SP S') as (<- & <- & _). rewrite !map_length in E. exact E. }
  set (M := fun p q => if p =? q then pinv (mass (nth p ran s0) (nth p dual s0)) else zeroMat (s_dofs (nth p ran s0)) (s_dofs (nth q dual s0))).
  assert (SZ : forall p q, p < length (map s_dofs ran) -> q < length (map s_dofs dual) -> m_rows (M p q) = nth p (map s_dofs ran) 0 /\ m_cols (M p q) = nth q (map s_dofs dual) 0).
  { intros p q Hp Hq. change 0 with (s_dofs s0). rewrite !map_nth. unfold M. destruct (Nat.eqb_spec p q) as [->|NE]; [|auto].
    destruct (G (mass (nth q ran s0) (nth q dual s0))) as (-> & -> & _). destruct (HM (nth q ran s0) (nth q dual s0)) as (-> & ->). auto. }
  destruct (C54_block_matrix_exists _ _ _ SZ) as (D & HD).
  assert (EN : forall p q, p < length ran -> q < length c -> entry (rangeBlocks mass (map Some ran) (map Some dual) (length c)) p q = if p =? q then Some (EInverse (mass (nth p ran s0) (nth p dual s0))) else None).
  { intros p q Hp Hq. unfold entry, rangeBlocks. rewrite nth_error_map, (nth_error_nth' _ 0) by (rewrite seq_length, map_length; auto). rewrite seq_nth by (rewrite map_length; auto). cbn [option_map Nat.add].
    rewrite nth_error_map, (nth_error_nth' _ 0) by (rewrite seq_length; auto). rewrite seq_nth by auto. cbn [option_map Nat.add]. unfold rangeEntry. destruct (p =? q); auto.
    rewrite (nth_indep _ None (Some s0)) by (rewrite map_length; auto). rewrite (nth_indep (map Some dual) None (Some s0)) by (rewrite map_length; lia). rewrite !map_nth. reflexivity. }
  assert (EO : forall p q x, entry (rangeBlocks mass (map Some ran) (map Some dual) (length c)) p q = Some x -> p < length ran /\ q < length c).
  { intros p q x H. unfold entry in H. destruct (nth_error (rangeBlocks mass (map Some ran) (map Some dual) (length c)) p) as [row|] eqn:Hr; [|discriminate].
    assert (p < length (rangeBlocks mass (map Some ran) (map Some dual) (length c))) as Lp by (apply nth_error_Some; congruence).
    unfold rangeBlocks in Lp, Hr. rewrite !map_length, seq_length in Lp. rewrite nth_error_map in Hr. destruct (nth_error (seq 0 (length (map Some ran))) p); [|discriminate]. cbn in Hr. injection Hr as <-.
    destruct (nth_error _ q) eqn:Hq in H; [|discriminate]. split; auto. assert (N : nth_error (map (fun j => rangeEntry mass (map Some ran) (map Some dual) n j) (seq 0 (length c))) q <> None) by congruence.
    apply nth_error_Some in N. rewrite map_length, seq_length in N. exact N. }
  assert (ND : ran <> []).
  { intros ->. destruct dual; [|discriminate]. cbn in V. clear - V. remember [] as R eqn:E. assert (R = []) as E' by auto. clear E.
    induction V; auto. }
  exists D. assert (VR : hasValue pinv (XBlocks (rangeBlocks mass (map Some ran) (map Some dual) (length c))) (map s_dofs ran) (map s_dofs dual) D).
  { apply VBlocks with (M := M); auto.
    - unfold rangeBlocks. rewrite !map_length, seq_length. reflexivity.
    - intros row H. unfold rangeBlocks in H. apply in_map_iff in H. destruct H as (p & <- & _). rewrite !map_length, seq_length. lia.
    - rewrite map_length. intros p Hp. exists p. eexists. rewrite EN by lia. rewrite Nat.eqb_refl. reflexivity.
    - rewrite map_length. intros p Hp. exists p. eexists. rewrite EN by lia. rewrite Nat.eqb_refl. reflexivity.
    - intros p q Hp Hq. split; [|apply SZ; auto]. rewrite map_length in Hp, Hq. unfold blockValue. rewrite EN by lia. unfold M. destruct (p =? q); auto.
      change 0 with (s_dofs s0). rewrite !map_nth. reflexivity.
    - intros p q x H. destruct (EO p q x H) as (L1 & L2). rewrite EN in H by auto. destruct (p =? q); [|discriminate]. injection H as <-. cbn. auto.
    - destruct ran; [contradiction|discriminate]. }
  destruct (C54_blocked_algebra G (VMul VR V)) as (o & B & RL). exists o. split; [exact HD|]. split; auto.
  rewrite (bstrong_history rc SE (SAny SP W)). rewrite map_length in B || idtac. exact B.
Qed.
(** Otherwise there is no strong form, and no weak form of a product whose right factor is not square *)
Theorem C92_blocked_strong_refuted K (mass : space -> space -> mat K) :
  (forall cs i rc ran dual c, setEarly mass cs -> hasSpaces (nodes (brun mass cs)) i ran dual c -> length ran <> length c ->
     snd (bstrong_form mass rc i (brun mass cs)) = Throws) /\
  (forall cs i rc a b ran dual c o, setEarly mass cs -> nth_error (nodes (brun mass cs)) i = Some (MProd a b) ->
     hasSpaces (nodes (brun mass cs)) b ran dual c -> length ran <> length c ->
     snd (bweak_form mass rc i (brun mass cs)) <> Ok o).
Proof.
  assert (T : forall r d n, length r <> n -> @bbuild K (XBlocks (rangeBlocks mass r d n)) = Throws).
  { intros r d n N. apply throws_or; [apply defined_blocks|]. intros b Hb. cbn [bbuild] in Hb. rewrite rangeBlocks_build in Hb. cbn [bind] in Hb.
    apply bind_ok in Hb. destruct Hb as (b' & Hb & _). destruct (mkBlocked_inv _ Hb) as (NE & B1 & B2 & _ & (C1 & C2) & _). rewrite map_length, seq_length in B1.
    assert (L : length (bl_cols b') = n).
    { destruct r as [|s r]; [contradiction|]. rewrite <- (B2 (rowD mass (s :: r) d n 0)); [|cbn; auto]. unfold rowD. rewrite map_length, seq_length. reflexivity. }
    assert (ENT : forall p q row o, nth_error (map (rowD mass r d n) (seq 0 (length r))) p = Some row -> nth_error row q = Some (Some o) -> p = q /\ p < length r /\ q < n).
    { intros p q row o H1 H2. assert (Lp : p < length (map (rowD mass r d n) (seq 0 (length r)))) by (apply nth_error_Some; congruence). rewrite map_length, seq_length in Lp.
      rewrite nth_error_map, (nth_error_nth' _ 0), seq_nth in H1 by (rewrite ?seq_length; auto). cbn in H1. injection H1 as <-.
      assert (Lq : q < length (rowD mass r d n p)) by (apply nth_error_Some; congruence). unfold rowD in Lq, H2. rewrite map_length, seq_length in Lq.
      rewrite nth_error_map, (nth_error_nth' _ 0), seq_nth in H2 by (rewrite ?seq_length; auto). cbn in H2. destruct (Nat.eqb_spec p q); [auto|discriminate]. }
    destruct (Nat.lt_ge_cases (length r) n) as [H|H].
    - destruct (C2 (length r)) as (p & row & o & H1 & H2); [lia|]. destruct (ENT _ _ _ _ H1 H2). lia.
    - destruct (C1 n) as (q & row & o & H1 & H2); [lia|]. destruct (ENT _ _ _ _ H1 H2). lia. }
  split.
  - intros cs i rc ran dual c SE SP N. assert (L : i < length (nodes (brun mass cs))) by (inversion SP; apply nth_error_Some; congruence).
    destruct (@weak_ex K mass _ (brun_older mass cs) i L) as (x & W). rewrite (bstrong_history rc SE (SAny SP W)).
    remember (XBlocks (rangeBlocks mass ran dual (length c))) as e eqn:E. cbn [bbuild]. subst e. rewrite T; auto.
  - intros cs i rc a b ran dual c o SE P SP N E. destruct (@brun_older K mass cs i _ P) as (La & Lb).
    assert (L : i < length (nodes (brun mass cs))) by (apply nth_error_Some; congruence).
    destruct (@weak_ex K mass _ (brun_older mass cs) a) as (x & Wa); [lia|]. destruct (@weak_ex K mass _ (brun_older mass cs) b) as (y & Wb); [lia|].
    rewrite (bweak_history rc SE (@WProd _ _ _ _ _ _ _ _ P Wa (SAny SP Wb))) in E. remember (XBlocks (rangeBlocks mass ran dual (length c))) as e eqn:Ee. cbn [bbuild] in E. subst e.
    rewrite T in E by auto. destruct (bbuild x); discriminate.
Qed.

(** Non-vacuity: a product of 2x2 operators with a missing block; a 1x2 times a 2x1 operator *)
Definition progSq : list (bcmd Zsr) := [BNew 2 2; BSet 0 0 0 (oneByOne 3); BSet 0 0 1 (oneByOne 4); BSet 0 1 1 (oneByOne 5); BMul 0 0].
Definition progRect : list (bcmd Zsr) := [BNew 1 2; BSet 0 0 0 (oneByOne 3); BSet 0 0 1 (oneByOne 4); BNew 2 1; BSet 1 0 0 (oneByOne 5); BSet 1 1 0 (oneByOne 6); BMul 0 1].
Lemma noForms_early K (mass : space -> space -> mat K) cs : (forall c, In c cs -> match c with BWeak _ _ | BStrong _ _ => False | _ => True end) -> setEarly mass cs.
Proof. intros H cs1 cs2 i r c b E p rc [A|A] _; [apply (H (BWeak rc p))|apply (H (BStrong rc p))]; rewrite E; apply in_app_iff; auto. Qed.
Example C91_case : setEarly massEx progSq /\ nth_error (nodes (brun massEx progSq)) 1 = Some (MProd 0 0) /\ (exists o, snd (bweak_form massEx false 1 (brun massEx progSq)) = Ok o).
Proof. split; [apply noForms_early; intros c H; repeat destruct H as [<-|H]; try exact I; contradiction H|]. split; [vm_compute; reflexivity|]. eexists. vm_compute. reflexivity. Qed.
Example C91_late : setEarly massEx (progSq ++ [BWeak false 1; BNew 1 1; BSet 2 0 0 (oneByOne 7)]).
Proof.
  intros cs1 cs2 i r c b E p rc [A|A] U.
  - assert (cs1 = progSq ++ [BWeak false 1; BNew 1 1] /\ i = 2 \/ ~ In (BWeak rc p) cs1) as [(-> & ->)|N].
    { unfold progSq in *. repeat (destruct cs1 as [|? cs1]; [cbn in E; try discriminate E; injection E as <- <- <- <- <-; cbn; try (left; auto; fail); right; intuition discriminate|injection E as <- E]). destruct cs1; discriminate E. }
    + assert (p = 1) as ->. { cbn in A. repeat (destruct A as [A|A]; [try discriminate A; injection A; auto|]). contradiction A. }
      assert (G : forall k, k < 2 -> ~ usesIt (nodes (brun massEx (progSq ++ [BWeak false 1; BNew 1 1]))) k 2).
      { intros k Hk V. remember 2 as t eqn:T. revert Hk T. induction V as [j|j a k H _ IH]; intros Hk T; [lia|]. subst k. apply IH; auto.
        assert (OL := brun_older massEx (progSq ++ [BWeak false 1; BNew 1 1])).
        destruct H as [(x & [H|[H|[H|H]]])|(x & H)]; pose proof (OL j _ H) as Q; cbn in Q; lia. }
      exact (G 1 (le_n 2) U).
    + contradiction.
  - assert (N : ~ In (BStrong rc p) cs1); [|contradiction].
    intros B. assert (X : In (BStrong rc p) (progSq ++ [BWeak false 1; BNew 1 1; BSet 2 0 0 (oneByOne 7)])) by (rewrite E; apply in_app_iff; auto).
    cbn in X. intuition discriminate.
Qed.
Example C92_case : setEarly massEx progRect /\ hasSpaces (nodes (brun massEx progRect)) 1 [Some sp1; Some sp1] [Some sp1; Some sp1] [Some sp1] /\
  nth_error (nodes (brun massEx progRect)) 2 = Some (MProd 0 1) /\ snd (bweak_form massEx false 2 (brun massEx progRect)) = Throws /\
  (exists o, snd (bstrong_form massEx false 0 (brun massEx progSq)) = Ok o).
Proof.
  split; [apply noForms_early; intros c H; repeat destruct H as [<-|H]; try exact I; contradiction H|]. split; [eapply SpBlk; vm_compute; reflexivity|].
  split; [vm_compute; reflexivity|]. split; [vm_compute; reflexivity|]. eexists. vm_compute. reflexivity.
Qed.
Print Assumptions C91_blocked_cache_partial.
Print Assumptions C91_blocked_cache_refuted.
Print Assumptions C92_blocked_strong_partial.
Print Assumptions C92_blocked_strong_refuted.
