From Verif Require Import Base AsmModel AsmSpec ParProofs AsmProofs HBlockProofs OperModel OperSpec LocalOpModel.
Set Implicit Arguments.

Section P.
  Variables (R K : star_ring) (emb : R -> K) (rp : K -> R).
  Add Ring KrL : (sr_ring K).
  Add Ring RrL : (sr_ring R).
  Variables (T U : space R).
  Hypothesis HT : dofsInRange T.
  Hypothesis HU : dofsInRange U.

  Lemma storeAll_ok (L : nat -> mat K) : forall ws slots, (forall i M, In (i, M) ws -> i < length slots /\ M = L i) ->
    exists s, storeAll slots ws = Some s /\ length s = length slots /\
      forall i, (In i (map fst ws) -> nth_error s i = Some (L i)) /\ (~ In i (map fst ws) -> nth_error s i = nth_error slots i).
  Proof.
    induction ws as [|[i M] ws IH]; intros slots H; cbn [storeAll].
    - exists slots. split; [reflexivity|]. split; [reflexivity|]. intro j. split; [intros []|reflexivity].
    - destruct (H i M (or_introl eq_refl)) as (Hi & ->). destruct (upd_Some slots (L i) Hi) as (s1 & E1). rewrite E1.
      destruct (IH s1) as (s & E & Ls & P).
      { intros k N Hin. rewrite (upd_length _ _ _ E1). apply H. now right. }
      exists s. split; [exact E|]. split; [rewrite Ls; eapply upd_length; eauto|]. intro k. destruct (P k) as (P1 & P2). cbn [map fst In]. split.
      + intros [<-|Hk]; [|auto]. destruct (in_dec Nat.eq_dec i (map fst ws)) as [Hk|Hk]; [auto|]. rewrite P2 by auto.
        rewrite (upd_nth_error _ _ _ i E1). now rewrite Nat.eqb_refl.
      + intros Hk. rewrite P2 by tauto. rewrite (upd_nth_error _ _ _ k E1). destruct (k =? i) eqn:Q; [|reflexivity].
        apply Nat.eqb_eq in Q. subst. tauto.
  Qed.
  Lemma localResults_ok (L : nat -> mat K) ranges :
    Permutation (flat_map (fun r => seq (fst r) (snd r - fst r)) ranges) (seq 0 (elementCount T)) ->
    exists res, localResults T L ranges = Some res /\ forall e, e < elementCount T -> nth e res (zeroMat 0 0) = L e.
  Proof.
    intro HP. unfold localResults.
    set (ws := flat_map _ ranges).
    assert (FW : map fst ws = flat_map (fun r => seq (fst r) (snd r - fst r)) ranges).
    { unfold ws. clear. induction ranges as [|r rs IH]; [reflexivity|]. cbn [flat_map]. rewrite map_app, IH. f_equal. rewrite map_map. cbn. apply map_id. }
    assert (W : forall i M, In (i, M) ws -> i < length (repeat (zeroMat 0 0) (elementCount T) : list (mat K)) /\ M = L i).
    { intros i M Hin. rewrite repeat_length. split.
      - assert (In i (seq 0 (elementCount T))); [|rewrite in_seq in *; lia]. eapply Permutation_in; [exact HP|]. rewrite <- FW. apply in_map_iff. exists (i, M). auto.
      - unfold ws in Hin. apply in_flat_map in Hin as (r & _ & Hin). apply in_map_iff in Hin as (k & E & _). congruence. }
    destruct (storeAll_ok L ws _ W) as (s & E & _ & P). exists s. split; [exact E|]. intros e He.
    destruct (P e) as (P1 & _). apply nth_error_nth. apply P1. rewrite FW. eapply Permutation_in; [apply Permutation_sym, HP|]. apply in_seq. lia.
  Qed.

  (** sum of the updates of one element *)
  Definition elt (L : nat -> mat K) e r c : K :=
    loc K (map (fun d => (fst d, emb (snd d))) (nth e (sp_dofs U) [])) c (fun j v =>
    loc K (map (fun d => (fst d, emb (snd d))) (nth e (sp_dofs T) [])) r (fun i w => mul (mul (conj w) v) (m_at (L e) i j))).
  Lemma enumerate_map A B (f : A -> B) l : enumerate (map f l) = map (fun x => (fst x, f (snd x))) (enumerate l).
  Proof.
    unfold enumerate. rewrite map_length. generalize (seq 0 (length l)) as s. induction l as [|a l IH]; intros [|k s]; cbn; try reflexivity.
    f_equal. apply IH.
  Qed.
  Lemma denseUpdates_sum L e r c : sumUps _ (denseUpdates emb T U L e) r c = elt L e r c.
  Proof.
    unfold denseUpdates. rewrite sumUps_flat_map. unfold elt, loc. rewrite enumerate_map, bsum_map. apply bsum_ext.
    intros [j [gd wtr]] _. cbn [fst snd]. destruct (Z.ltb_spec gd 0) as [Hn|Hp].
    - destruct (Z.eqb_spec gd (Z.of_nat c)); [lia|]. reflexivity.
    - rewrite sumUps_flat_map, enumerate_map, bsum_map, sum_out. apply bsum_ext. intros [i [ge wte]] _. cbn [fst snd].
      destruct (Z.ltb_spec ge 0) as [Hn'|Hp'].
      + destruct (Z.eqb_spec ge (Z.of_nat r)); [lia|]. unfold sumUps. rewrite bsum_nil. now destruct (_ =? _)%Z.
      + unfold sumUps. rewrite bsum_cons, bsum_nil.
        assert (E1 : (c =? Z.to_nat gd) = (gd =? Z.of_nat c)%Z) by (destruct (Nat.eqb_spec c (Z.to_nat gd)), (Z.eqb_spec gd (Z.of_nat c)); lia).
        assert (E2 : (r =? Z.to_nat ge) = (ge =? Z.of_nat r)%Z) by (destruct (Nat.eqb_spec r (Z.to_nat ge)), (Z.eqb_spec ge (Z.of_nat r)); lia).
        rewrite E1, E2. destruct (gd =? Z.of_nat c)%Z, (ge =? Z.of_nat r)%Z; cbn [andb]; ring.
  Qed.
  Lemma denseUpdates_in L e r c v : In (r, c, v) (denseUpdates emb T U L e) -> r < sp_count T /\ c < sp_count U.
  Proof.
    intro Hin. unfold denseUpdates in Hin. apply in_flat_map in Hin as ([j [gd wtr]] & Hj & Hin). destruct (Z.ltb_spec gd 0); [destruct Hin|].
    apply in_flat_map in Hin as ([i [ge wte]] & Hi & Hin). destruct (Z.ltb_spec ge 0); [destruct Hin|]. destruct Hin as [E|[]]. injection E as <- <- <-.
    apply in_enumerate in Hi, Hj. apply nth_error_In in Hi, Hj.
    pose proof (@nth_dofs_in _ T _ _ _ HT Hi). pose proof (@nth_dofs_in _ U _ _ _ HU Hj). lia.
  Qed.

  Definition localSum (L : nat -> mat K) r c : K := bsum (seq 0 (elementCount T)) (fun e => elt L e r c).
  Definition shapes (L : nat -> mat K) : Prop := forall e, e < elementCount T ->
    m_rows (L e) = length (nth e (sp_dofs T) []) /\ m_cols (L e) = length (nth e (sp_dofs U) []).
  Lemma shapes_check (L : nat -> mat K) : shapes L -> forallb (fun e => shapeOk T U (L e) e) (seq 0 (elementCount T)) = true.
  Proof.
    intro H. apply forallb_forall. intros e He. apply in_seq in He. destruct (H e) as (A & B); [lia|]. unfold shapeOk. rewrite A, B, !Nat.eqb_refl. reflexivity.
  Qed.
  Lemma localDense_ok L : shapes L -> exists m, localDense emb T U L = Some m /\ m_rows m = sp_count T /\ m_cols m = sp_count U /\
    forall r c, m_at m r c = localSum L r c.
  Proof.
    intro S. unfold localDense. rewrite shapes_check by auto.
    destruct (@addAll_ok K (flat_map (denseUpdates emb T U L) (seq 0 (elementCount T))) (zeroMat (sp_count T) (sp_count U))) as (m & E & M1 & M2 & P).
    { intros r c v Hin. apply in_flat_map in Hin as (e & _ & Hin). eapply denseUpdates_in; exact Hin. }
    exists m. split; [exact E|]. split; [exact M1|]. split; [exact M2|]. intros r c. rewrite P, sumUps_flat_map. cbn [zeroMat m_at].
    unfold localSum. erewrite bsum_ext; [|intros e _; apply denseUpdates_sum]. ring.
  Qed.

  (** triplets of an element *)
  Hypothesis rp_add : forall x y, rp (add x y) = add (rp x) (rp y).
  Lemma rp_zero : rp zero = zero.
  Proof.
    assert (E : rp (add zero zero) = add (rp zero) (rp zero)) by apply rp_add.
    assert (Z : add zero zero = zero :> K) by ring. rewrite Z in E.
    assert (Q : sub (rp zero) (rp zero) = sub (add (rp zero) (rp zero)) (rp zero)) by (f_equal; exact E).
    ring_simplify in Q. symmetry. exact Q.
  Qed.
  Lemma rp_bsum A (l : list A) (f : A -> K) : rp (bsum l f) = bsum l (fun a => rp (f a)).
  Proof. induction l as [|a l IH]; [apply rp_zero|]. rewrite !bsum_cons, rp_add, IH. reflexivity. Qed.
  Lemma flat_map_seq_nth A B (l : list A) (F : nat -> A -> list B) :
    flat_map (fun j => match nth_error l j with Some a => F j a | None => [] end) (seq 0 (length l)) = flat_map (fun x => F (fst x) (snd x)) (enumerate l).
  Proof.
    unfold enumerate. assert (G : forall p, flat_map (fun j => match nth_error (p ++ l) j with Some a => F j a | None => [] end) (seq (length p) (length l)) =
       flat_map (fun x => F (fst x) (snd x)) (combine (seq (length p) (length l)) l)); [|exact (G [])].
    induction l as [|a l IH]; intro p; [reflexivity|]. cbn [length seq combine flat_map fst snd].
    rewrite nth_error_app2, Nat.sub_diag by lia. cbn [nth_error]. f_equal.
    specialize (IH (p ++ [a])). rewrite app_length in IH. cbn [length] in IH. rewrite <- app_assoc in IH. cbn [app] in IH.
    rewrite Nat.add_1_r in IH. exact IH.
  Qed.
  Lemma triplets_eq L e : e < elementCount T -> shapes L ->
    triplets rp T U e (weighted emb T U e (L e)) = map (fun u => let '(r, c, v) := u in (r, c, rp v)) (denseUpdates emb T U L e).
  Proof.
    intros He S. destruct (S e He) as (S1 & S2). unfold triplets, denseUpdates. cbn [weighted m_rows m_cols m_at]. rewrite S1, S2.
    set (dT := nth e (sp_dofs T) []). set (dU := nth e (sp_dofs U) []).
    rewrite (flat_map_seq_nth dU (fun j a => let '(gd, _) := a in if (gd <? 0)%Z then [] else _)).
    rewrite (flat_map_concat_map _ (enumerate dU)), (flat_map_concat_map _ (enumerate dU)), concat_map, map_map. f_equal. apply map_ext_in.
    intros [j [gd wtr]] Hj. cbn [fst snd]. apply in_enumerate in Hj. destruct (gd <? 0)%Z; [reflexivity|].
    rewrite (flat_map_seq_nth dT (fun i a => let '(ge, _) := a in if (ge <? 0)%Z then [] else _)).
    rewrite (flat_map_concat_map _ (enumerate dT)), (flat_map_concat_map _ (enumerate dT)), concat_map, map_map. f_equal. apply map_ext_in.
    intros [i [ge wte]] Hi. cbn [fst snd]. apply in_enumerate in Hi. destruct (ge <? 0)%Z; [reflexivity|]. cbn [map].
    unfold dT, dU in *. rewrite Hi, Hj. do 3 f_equal. ring.
  Qed.
  Lemma sumUps_rp us r c : sumUps R (map (fun u : nat * nat * K => let '(r, c, v) := u in (r, c, rp v)) us) r c = rp (sumUps K us r c).
  Proof.
    unfold sumUps. rewrite bsum_map, rp_bsum. apply bsum_ext. intros [[r' c'] v] _. destruct ((r =? r') && (c =? c')); [reflexivity|]. symmetry. apply rp_zero.
  Qed.
  Lemma localSparse_ok L ranges : shapes L ->
    Permutation (flat_map (fun r => seq (fst r) (snd r - fst r)) ranges) (seq 0 (elementCount T)) ->
    exists m, localSparse emb rp T U L ranges = Some m /\ m_rows m = sp_count T /\ m_cols m = sp_count U /\
    forall r c, m_at m r c = rp (localSum L r c).
  Proof.
    intros S HP. unfold localSparse. destruct (@localResults_ok L ranges HP) as (res & -> & Hr).
    assert (FB : forallb (fun e => shapeOk T U (nth e res (zeroMat 0 0)) e) (seq 0 (elementCount T)) = true).
    { rewrite <- (shapes_check S). clear -Hr. assert (Q : forall e, In e (seq 0 (elementCount T)) -> e < elementCount T) by (intros; rewrite in_seq in *; lia).
      induction (seq 0 (elementCount T)) as [|e l IH]; [reflexivity|]. cbn [forallb]. rewrite Hr by (apply Q; now left). f_equal. apply IH. intros; apply Q; now right. }
    rewrite FB.
    assert (EQ : flat_map (fun e => triplets rp T U e (weighted emb T U e (nth e res (zeroMat 0 0)))) (seq 0 (elementCount T)) =
       map (fun u => let '(r, c, v) := u in (r, c, rp v)) (flat_map (denseUpdates emb T U L) (seq 0 (elementCount T)))).
    { rewrite !flat_map_concat_map, concat_map, map_map. f_equal. apply map_ext_in. intros e He. apply in_seq in He. rewrite Hr by lia. apply triplets_eq; [lia|exact S]. }
    rewrite EQ.
    destruct (@addAll_ok R (map (fun u => let '(r, c, v) := u in (r, c, rp v)) (flat_map (denseUpdates emb T U L) (seq 0 (elementCount T)))) (zeroMat (sp_count T) (sp_count U))) as (m & E & M1 & M2 & P).
    { intros r c v Hin. apply in_map_iff in Hin as ([[r' c'] v'] & Q & Hin). injection Q as <- <- <-. apply in_flat_map in Hin as (e & _ & Hin). eapply denseUpdates_in; exact Hin. }
    exists m. split; [exact E|]. split; [exact M1|]. split; [exact M2|]. intros r c. rewrite P, sumUps_rp, sumUps_flat_map. cbn [zeroMat m_at].
    unfold localSum. erewrite (bsum_ext (K := K)); [|intros e _; apply denseUpdates_sum]. ring.
  Qed.
End P.

Lemma mul_zero_r_ (K : star_ring) (x : K) : mul x zero = zero.
Proof. rewrite (Rmul_comm (sr_ring K)). apply (ARmul_0_l (Rth_ARth (Eqsth K) (Eq_ext _ _ _) (sr_ring K))). Qed.
(** relation with the Galerkin matrix of the integrals restricted to equal elements *)
Definition castSpace {R K : star_ring} (emb : R -> K) (S : space R) : space K :=
  Space (sp_count S) (map (map (fun d => (fst d, emb (snd d)))) (sp_dofs S)) (fun _ => None).
Definition diagonal {K : star_ring} (L : nat -> mat K) (e f i j : nat) : K := if e =? f then m_at (L e) i j else zero.
Lemma localSum_galerkin (R K : star_ring) (emb : R -> K) (T U : space R) (L : nat -> mat K) r c :
  length (sp_dofs T) = length (sp_dofs U) ->
  localSum emb T U L r c = galerkin (castSpace emb T) (castSpace emb U) (diagonal L) r c.
Proof.
  intro LEN. rewrite galerkin_inner. cbn [castSpace sp_dofs]. rewrite !map_length. unfold localSum, elementCount. rewrite LEN. apply bsum_ext.
  intros e He. apply in_seq in He. symmetry.
  rewrite (@bsum_single K nat Nat.eq_dec _ e).
  - unfold inner, elt. cbn [castSpace sp_dofs].
    change (@nil (Z * K)) with (map (fun d : Z * R => (fst d, emb (snd d))) []). rewrite !map_nth.
    apply loc_ext. intros j v. apply loc_ext. intros i w. unfold diagonal. now rewrite Nat.eqb_refl.
  - apply seq_NoDup.
  - apply in_seq. lia.
  - intros f _ Hne. unfold inner. unfold loc at 1. apply bsum_zero. intros [j [g v]] _. destruct (g =? _)%Z; [|reflexivity].
    unfold loc. apply bsum_zero. intros [i [g' w]] _. destruct (g' =? _)%Z; [|reflexivity]. unfold diagonal.
    apply Nat.eqb_neq in Hne. rewrite Hne.
    apply mul_zero_r_.
Qed.
