(** Proofs about histories of blocked operators *)
From Coq Require Import List Arith Bool Lia.
Import ListNotations.
From Verif Require Import Base ArrayModel AsmModel QuadModel MatAlg PyOpModel LocalCacheProofs PyOpSpec PyOpProofs PyBopModel PyBopProofs PyBlockModel PyBlockSpec PyBlockProofs PyBbopModel PyBbopSpec PyBbopProofs.
Set Implicit Arguments.

Section Hist.
  Variable K : star_ring.
  Variable mass : space -> space -> mat K.
  Notation bheap := (bheap K).

  (** discretising does not change what the objects are *)
  Lemma bthen_nodes x f h : (forall h, nodes (fst (x h)) = nodes h) -> (forall w h, nodes (fst (f w h)) = nodes h) -> nodes (fst (bthen x f h)) = @nodes K h.
  Proof. intros X F. unfold bthen. specialize (X h). destruct (x h) as (h1, r). cbn in X. destruct r; cbn; auto. rewrite F. auto. Qed.
  Lemma bstrong_nodes weak rc i h : (forall rc i h, nodes (fst (weak rc i h)) = nodes h) -> nodes (fst (bstrongWith mass weak rc i h)) = @nodes K h.
  Proof.
    intros W. unfold bstrongWith. destruct (nth_error h i) as [o|]; auto. destruct (negb _); auto.
    assert (E : nodes (if rc then modifyAt h i (setBMap None) else h) = nodes h) by (destruct rc; auto; apply nodes_modifyAt; auto).
    assert (F : forall m h, nodes (fst (bthen (weak rc i) (fun w => bret (bMul (BLeaf m) w)) h)) = nodes h) by (intros; apply bthen_nodes; auto).
    destruct (if rc then None else bo_map o); [rewrite F; auto|]. destruct (spacesAt _ _ _); auto. destruct (newRangeMap mass _); auto.
    rewrite F, nodes_modifyAt; auto.
  Qed.
  Lemma bweak_nodes f rc i h : nodes (fst (bweakForm mass f rc i h)) = nodes h.
  Proof.
    revert rc i h. induction f as [|f IH]; intros rc i h; [reflexivity|]. cbn [bweakForm]. destruct (nth_error h i) as [o|]; auto.
    destruct (if rc then None else bo_weak o); auto. rewrite bthen_nodes.
    - destruct rc; auto. apply nodes_modifyAt; auto.
    - intros h'. unfold bweakImpl. destruct (bo_node o) as [ops r d c|a b|a x|a b].
      + destruct (complete _); auto.
      + repeat (apply bthen_nodes; intros; auto).
      + repeat (apply bthen_nodes; intros; auto).
      + repeat (apply bthen_nodes; intros; auto). apply bstrong_nodes; auto.
    - intros w h'. cbn. apply nodes_modifyAt; auto.
  Qed.

  Lemma setNth_length A (l : list A) i v : length (setNth l i v) = length l.
  Proof. revert i. induction l; intros [|i]; cbn; auto. Qed.
  Lemma nth_setNth A (l : list A) i v k : nth_error (setNth l i v) k = if (k =? i) && (i <? length l) then Some v else nth_error l k.
  Proof.
    revert i k. induction l as [|a l IH]; intros [|i] [|k]; cbn [setNth nth_error length]; auto.
    - rewrite andb_false_r. reflexivity.
    - rewrite IH. reflexivity.
  Qed.
  Lemma setNth_in A (l : list A) i v x : In x (setNth l i v) -> x = v \/ In x l.
  Proof. revert i. induction l as [|a l IH]; intros [|i]; cbn; auto; intros [->|H]; auto. destruct (IH _ H); auto. Qed.
  Lemma nodes_set (h : bheap) i n : nodes (modifyAt h i (setNode n)) = setNth (nodes h) i n.
  Proof. unfold nodes. revert i. induction h as [|o h IH]; intros [|i]; cbn; auto. rewrite IH. auto. Qed.

  Lemma setItem_inv (n : bnode K) r c b n' : setItem n r c b = Ok n' ->
    exists ops ran dual dom ops' ran' dual' dom', n = MBlk ops ran dual dom /\ n' = MBlk ops' ran' dual' dom' /\
      length ran' = length ran /\ length dual' = length dual /\ length dom' = length dom.
  Proof.
    destruct n as [ops ran dual dom|a b'|a x|a b']; try discriminate. cbn. destruct (nth_error ops r) as [row|]; [|discriminate].
    destruct (nth_error ran r) as [sr|]; [|discriminate]. destruct (nth_error dual r) as [sd|]; [|discriminate]. destruct (nth_error dom c) as [sc|]; [|discriminate].
    destruct (_ || _); [discriminate|]. intros H. injection H as <-. do 8 eexists. split; [reflexivity|]. split; [reflexivity|]. rewrite !setNth_length. auto.
  Qed.
  Lemma older_set ns i n r c b n' : older ns -> nth_error ns i = Some n -> setItem n r c b = Ok n' -> older (setNth ns i n' : list (bnode K)).
  Proof.
    intros O N S k m Hk. rewrite nth_setNth in Hk. destruct (Nat.eqb_spec k i) as [->|NE]; [|apply (O k m Hk)].
    assert (L : i < length ns) by (apply nth_error_Some; congruence). apply Nat.ltb_lt in L. rewrite L in Hk. cbn in Hk. injection Hk as <-.
    destruct n as [ops ran dual dom|a b'|a x|a b']; try discriminate. pose proof (O i _ N) as (L1 & L2 & L3 & E1 & E2). cbn in S.
    destruct (nth_error ops r) as [row|] eqn:Hr; [|discriminate].
    destruct (nth_error ran r) as [sr|] eqn:Hsr; [|discriminate]. destruct (nth_error dual r) as [sd|] eqn:Hsd; [|discriminate]. destruct (nth_error dom c) as [sc|] eqn:Hsc; [|discriminate].
    destruct (_ || _); [discriminate|]. injection S as <-.
    assert (Lr : r < length ops) by (apply nth_error_Some; congruence). assert (Lr' : r < length ran) by (apply nth_error_Some; congruence). assert (Lc : c < length dom) by (apply nth_error_Some; congruence).
    pose proof (L3 row (nth_error_In _ _ Hr)) as LR.
    rewrite !setNth_length. split; auto. split; auto. split; [|split].
    - intros row' Hin. apply setNth_in in Hin. destruct Hin as [->|Hin]; [rewrite setNth_length; auto|apply L3; auto].
    - intros k Hk row' x Hrow Hx. rewrite nth_setNth in Hk, Hrow. apply Nat.ltb_lt in Lr, Lr'. rewrite Lr' in Hk. rewrite Lr in Hrow.
      destruct (k =? r); cbn in Hk, Hrow; [discriminate|]. eapply E1; eauto.
    - intros j Hj row' x Hrow Hx. rewrite nth_setNth in Hj. apply Nat.ltb_lt in Lc. rewrite Lc in Hj. destruct (Nat.eqb_spec j c) as [EJ|NJ]; cbn in Hj; [discriminate|].
      apply setNth_in in Hrow. destruct Hrow as [->|Hrow]; [|eapply E2; eauto]. rewrite nth_setNth in Hx. apply Nat.eqb_neq in NJ. rewrite NJ in Hx. cbn in Hx.
      eapply E2; [exact Hj|eapply nth_error_In; exact Hr|exact Hx].
  Qed.
  Lemma older_app ns n : older ns -> match n with MBlk ops r d c => length ops = length r /\ length d = length r /\ (forall row, In row ops -> length row = length c) /\
                 (forall i, nth_error r i = Some None -> forall row x, nth_error ops i = Some row -> In x row -> x = None) /\
                 (forall j, nth_error c j = Some None -> forall row x, In row ops -> nth_error row j = Some x -> x = None)
               | MSum a b | MProd a b => a < length ns /\ b < length ns | MScaled a _ => a < length ns end -> older (ns ++ [n] : list (bnode K)).
  Proof.
    intros O H k m Hk. destruct (Nat.lt_ge_cases k (length ns)) as [L|L].
    - rewrite nth_error_app1 in Hk by auto. apply (O k m Hk).
    - rewrite nth_error_app2 in Hk by auto. destruct (k - length ns) as [|z] eqn:Z; [|destruct z; discriminate]. cbn in Hk. injection Hk as <-. assert (k = length ns) as -> by lia. exact H.
  Qed.
  Lemma spacesAt_in f (h : bheap) i s : spacesAt f h i = Some s -> i < length (nodes h).
  Proof. rewrite nodes_length. destruct f; cbn; [discriminate|]. destruct (nth_error h i) eqn:E; [|discriminate]. intros _. apply nth_error_Some. congruence. Qed.
  (** what one statement does to the objects *)
  Lemma bstep_nodes h c : older (nodes h) ->
    (exists n, bstep mass h c = h ++ [BObj n None None] /\ older (nodes h ++ [n])) \/
    (exists i r k b n n', c = BSet i r k b /\ nth_error (nodes h) i = Some n /\ setItem n r k b = Ok n' /\ bstep mass h c = modifyAt h i (setNode n')) \/
    nodes (bstep mass h c) = nodes h /\ (bstep mass h c = h \/ exists rc i, c = BWeak rc i \/ c = BStrong rc i).
  Proof.
    intros O. destruct c as [m n|i j|i x|i j|i r k b|rc i|rc i]; cbn [bstep].
    - left. eexists. split; [reflexivity|]. apply older_app; auto. rewrite !repeat_length. split; auto. split; auto. split; [|split].
      + intros row Hr. apply repeat_spec in Hr. subst. apply repeat_length.
      + intros i _ row x H Hx. apply nth_error_In in H. apply repeat_spec in H. subst row. apply repeat_spec in Hx. auto.
      + intros j _ row x H Hx. apply repeat_spec in H. subst row. apply nth_error_In in Hx. apply repeat_spec in Hx. auto.
    - destruct (spacesAt (S (length h)) h i) as [((r, d), c)|] eqn:A; [|auto]. destruct (spacesAt (S (length h)) h j) as [((r', d'), c')|] eqn:B; [|auto].
      destruct (_ && _); [|auto]. left. eexists. split; [reflexivity|]. apply older_app; auto. apply spacesAt_in in A, B. auto.
    - destruct (spacesAt (S (length h)) h i) as [s|] eqn:A; [|auto]. left. eexists. split; [reflexivity|]. apply older_app; auto. apply spacesAt_in in A. auto.
    - destruct (spacesAt (S (length h)) h i) as [((r, d), c)|] eqn:A; [|auto]. destruct (spacesAt (S (length h)) h j) as [((r', d'), c')|] eqn:B; [|auto].
      destruct (sameSpaces _ _); [|auto]. left. eexists. split; [reflexivity|]. apply older_app; auto. apply spacesAt_in in A, B. auto.
    - destruct (nth_error h i) as [o|] eqn:N; [|auto]. destruct (setItem (bo_node o) r k b) as [n'| |] eqn:S; auto. right. left. exists i, r, k, b, (bo_node o), n'.
      split; auto. split; [rewrite nth_nodes, N; auto|]. auto.
    - right. right. unfold bweak_form. rewrite bweak_nodes. split; auto. right. eauto.
    - right. right. unfold bstrong_form. rewrite bstrong_nodes; [|intros; apply bweak_nodes]. split; auto. right. eauto.
  Qed.
  Lemma nodes_app (h : bheap) o : nodes (h ++ [o]) = nodes h ++ [bo_node o]. Proof. unfold nodes. rewrite map_app. reflexivity. Qed.
  Lemma bstep_older h c : older (nodes h) -> older (nodes (bstep mass h c)).
  Proof.
    intros O. destruct (@bstep_nodes _ c O) as [(n & E & O')|[(i & r & k & b & n & n' & _ & N & S & E)|(E & _)]].
    - rewrite E, nodes_app. exact O'.
    - rewrite E, nodes_set. eapply older_set; eauto.
    - rewrite E. exact O.
  Qed.
  Lemma brun_snoc cs c : brun mass (cs ++ [c]) = bstep mass (brun mass cs) c.
  Proof. unfold brun. rewrite fold_left_app. reflexivity. Qed.
  Theorem brun_older cs : older (nodes (brun mass cs)).
  Proof.
    induction cs as [|c cs IH] using rev_ind; [intros [|i] n H; discriminate|]. rewrite brun_snoc. apply bstep_older. exact IH.
  Qed.

  (** the specification does not depend on newer or unrelated objects *)
  Section Transfer.
    Variables ns ns' : list (bnode K).
    Variable P : nat -> Prop.
    Hypothesis AGREE : forall k n, P k -> nth_error ns k = Some n -> nth_error ns' k = Some n.
    Hypothesis PART : forall k n, P k -> nth_error ns k = Some n -> match n with MBlk _ _ _ _ => True | MSum a b | MProd a b => P a /\ P b | MScaled a _ => P a end.
    Lemma spaces_transfer i r d c : hasSpaces ns i r d c -> P i -> hasSpaces ns' i r d c.
    Proof.
      induction 1 as [i ops r d c N|i a b r d c N _ IH|i a x r d c N _ IH|i a b r d c r0 d0 c0 N _ IHa _ IHb]; intros Hi; pose proof (PART Hi N) as Q.
      - eapply SpBlk; eauto.
      - destruct Q. eapply SpSum; eauto.
      - eapply SpScaled; eauto.
      - destruct Q. eapply SpProd; eauto.
    Qed.
    Lemma weak_transfer i x : weakIs mass ns i x -> P i -> weakIs mass ns' i x.
    Proof.
      intros H. pattern i, x, H. apply weakIs_mut with (P0 := fun i x _ => P i -> strongIs mass ns' i x); clear i x H.
      - intros i ops r d c N Hi. eapply WBlk; eauto.
      - intros i a b x y N _ IHa _ IHb Hi. pose proof (PART Hi N) as Q. destruct Q. eapply WSum; eauto.
      - intros i a c x N _ IHa Hi. pose proof (PART Hi N) as Q. eapply WScaled; eauto.
      - intros i a b x y N _ IHa _ IHb Hi. pose proof (PART Hi N) as Q. destruct Q. eapply WProd; eauto.
      - intros i r d c x S _ IH Hi. eapply SAny; eauto. eapply spaces_transfer; eauto.
    Qed.
  End Transfer.
  Lemma uses_trans (ns : list (bnode K)) i j k : usesIt ns i j -> usesIt ns j k -> usesIt ns i k.
  Proof. induction 1; intros; auto. eapply UsesPart; eauto. Qed.
  Definition part (n : bnode K) (a : nat) : Prop := match n with MBlk _ _ _ _ => False | MSum x y | MProd x y => a = x \/ a = y | MScaled x _ => a = x end.
  Lemma uses_part (ns : list (bnode K)) i n a : nth_error ns i = Some n -> part n a -> usesIt ns i a.
  Proof.
    intros N Hp. eapply UsesPart; [|apply UsesSelf]. destruct n as [ops r d c|x y|x e|x y]; cbn in Hp; try contradiction.
    - left. destruct Hp as [->| ->]; eexists; eauto.
    - subst. right. eauto.
    - left. destruct Hp as [->| ->]; eexists; eauto.
  Qed.
  Lemma uses_transfer (ns ns' : list (bnode K)) : (forall k n a, nth_error ns k = Some n -> part n a -> nth_error ns' k = Some n) ->
    forall i k, usesIt ns i k -> usesIt ns' i k.
  Proof.
    intros A i k H. induction H as [i|i a k H _ IH]; [constructor|]. apply UsesPart with (a := a); [|exact IH].
    destruct H as [(j & H)|(c & H)]; [left; exists j|right; exists c; apply (A i _ a); cbn; auto].
    destruct H as [H|[H|[H|H]]]; [left|right; left|right; right; left|right; right; right]; apply (A i _ a H); cbn; auto.
  Qed.

  (** operators discretised so far and their parts *)
  Definition touched (cs : list (bcmd K)) (ns : list (bnode K)) (k : nat) : Prop :=
    exists p rc, (In (BWeak rc p) cs \/ In (BStrong rc p) cs) /\ usesIt ns p k.
  Lemma touched_closed cs ns i n : touched cs ns i -> nth_error ns i = Some n ->
    match n with MBlk _ _ _ _ => True | MSum a b | MProd a b => touched cs ns a /\ touched cs ns b | MScaled a _ => touched cs ns a end.
  Proof.
    intros (p & rc & H & U) N. assert (G : forall a, part n a -> touched cs ns a).
    { intros a Ha. exists p, rc. split; auto. eapply uses_trans; eauto. eapply uses_part; eauto. }
    destruct n; auto; try (split; apply G; cbn; auto); apply G; cbn; auto.
  Qed.
  Lemma BInv_weaken ns (Q Q' : nat -> Prop) h : (forall k, Q k -> Q' k) -> BInv mass ns Q h -> BInv mass ns Q' h.
  Proof.
    intros W (E & H). split; auto. intros k o Ho. destruct (H k o Ho) as (H1 & H2). split; [intros w Hw; destruct (H1 w Hw)|intros m Hm; destruct (H2 m Hm)]; auto.
  Qed.
  Lemma byields_weak cs cs' i rc h : older (nodes h) -> BInv mass (nodes h) (touched cs (nodes h)) h -> (forall x, In x cs -> In x cs') ->
    (exists rc', In (BWeak rc' i) cs' \/ In (BStrong rc' i) cs') -> forall x, weakIs mass (nodes h) i x ->
    forall f, i < f -> byields mass (nodes h) (touched cs' (nodes h)) (bweakForm mass f rc i) h (bbuild x).
  Proof.
    intros O I SUB (rc' & C) x W f L. apply bweak_ok; auto.
    - intros j n Hj. apply touched_closed. exact Hj.
    - exists i, rc'. split; auto. constructor.
    - eapply BInv_weaken; [|exact I]. intros k (p & rc0 & H & U). exists p, rc0. split; auto. destruct H; auto.
  Qed.
  Lemma byields_strong cs cs' i rc h : older (nodes h) -> BInv mass (nodes h) (touched cs (nodes h)) h -> (forall x, In x cs -> In x cs') ->
    (exists rc', In (BWeak rc' i) cs' \/ In (BStrong rc' i) cs') -> forall x, strongIs mass (nodes h) i x ->
    forall f, i < f -> byields mass (nodes h) (touched cs' (nodes h)) (bstrongWith mass (bweakForm mass f) rc i) h (bbuild x).
  Proof.
    intros O I SUB C x W f L. destruct W as [i r d c x S W]. destruct C as (rc' & C).
    assert (QI : touched cs' (nodes h) i) by (exists i, rc'; split; auto; constructor).
    apply bstrong_ok; auto.
    - intros rc0 h0 I0. apply bweak_ok; auto. intros j n Hj. apply touched_closed. exact Hj.
    - destruct (@spaces_ex K (nodes h) O i) as (r' & d' & c' & S' & E); [inversion W; apply nth_error_Some; congruence|]. destruct (spaces_det S S') as (-> & -> & _). exact E.
    - eapply BInv_weaken; [|exact I]. intros k (p & rc0 & H & U). exists p, rc0. split; auto. destruct H; auto.
  Qed.
  Theorem brun_inv cs : setEarly mass cs -> BInv mass (nodes (brun mass cs)) (touched cs (nodes (brun mass cs))) (brun mass cs).
  Proof.
    induction cs as [|c cs IH] using rev_ind; intros SE; [split; auto; intros [|k] o H; discriminate|].
    assert (SE0 : setEarly mass cs).
    { intros cs1 cs2 i r k b E. apply (SE cs1 (cs2 ++ [c]) i r k b). rewrite E, <- app_assoc. reflexivity. }
    specialize (IH SE0). pose proof (brun_older cs) as O. rewrite brun_snoc. set (h := brun mass cs) in *.
    assert (MON : forall ns k, touched cs ns k -> touched (cs ++ [c]) ns k).
    { intros ns k (p & rc & H & U). exists p, rc. split; auto. rewrite !in_app_iff. destruct H; auto. }
    destruct (@bstep_nodes _ c O) as [(n & E & O')|[(i & r & k & b & n & n' & -> & N & S & E)|(E & [E'|(rc & i & C)])]].
    - rewrite E, nodes_app. cbn [bo_node]. destruct IH as (_ & IH). split; [rewrite nodes_app; auto|].
      intros k o Ho. destruct (Nat.lt_ge_cases k (length h)) as [L|L].
      2: { rewrite nth_error_app2 in Ho by auto. destruct (k - length h) as [|z]; [|destruct z; discriminate]. cbn in Ho. injection Ho as <-. cbn. split; discriminate. }
      rewrite nth_error_app1 in Ho by auto. destruct (IH k o Ho) as (H1 & H2).
      assert (AG : forall k n0, k < length (nodes h) -> nth_error (nodes h) k = Some n0 -> nth_error (nodes h ++ [n]) k = Some n0) by (intros; rewrite nth_error_app1; auto).
      assert (PT : forall k n0, k < length (nodes h) -> nth_error (nodes h) k = Some n0 -> match n0 with MBlk _ _ _ _ => True | MSum a b | MProd a b => a < length (nodes h) /\ b < length (nodes h) | MScaled a _ => a < length (nodes h) end).
      { intros j n0 Lj Hj. pose proof (O j _ Hj) as Q. destruct n0; auto; lia. }
      assert (TT : touched cs (nodes h) k -> touched (cs ++ [c]) (nodes h ++ [n]) k).
      { intros (p & rc & H & U). exists p, rc. split; [rewrite !in_app_iff; tauto|]. eapply uses_transfer; [|exact U]. intros j n0 a Hj _. apply AG; auto. apply nth_error_Some. congruence. }
      rewrite <- nodes_length in L. split.
      + intros w Hw. destruct (H1 w Hw) as (Q & x & Wx & B). split; auto. exists x. split; auto. exact (@weak_transfer _ _ _ AG PT _ _ Wx L).
      + intros m Hm. destruct (H2 m Hm) as (Q & r & d & c' & Sx & B). split; auto. exists r, d, c'. split; auto. exact (@spaces_transfer _ _ _ AG PT _ _ _ _ Sx L).
    - rewrite E, nodes_set. destruct IH as (_ & IH).
      assert (FREE : forall p, touched cs (nodes h) p -> ~ usesIt (nodes h) p i).
      { intros p (q & rc & H & U) V. apply (SE cs [] i r k b) with (p := q) (rc := rc); auto. eapply uses_trans; eauto. }
      destruct (setItem_inv _ _ _ _ S) as (ops & ran & dual & dom & ops' & ran' & dual' & dom' & -> & -> & _).
      assert (UT : forall p q, usesIt (nodes h) p q -> usesIt (setNth (nodes h) i (MBlk ops' ran' dual' dom')) p q).
      { apply uses_transfer. intros j n0 a Hj Ha. rewrite nth_setNth. destruct (Nat.eqb_spec j i) as [->|NE]; auto. rewrite N in Hj. injection Hj as <-. contradiction Ha. }
      assert (AG : forall j n0, ~ usesIt (nodes h) j i -> nth_error (nodes h) j = Some n0 -> nth_error (setNth (nodes h) i (MBlk ops' ran' dual' dom')) j = Some n0).
      { intros j n0 U Hj. rewrite nth_setNth. destruct (Nat.eqb_spec j i) as [->|NE]; auto. exfalso. apply U. constructor. }
      assert (PT : forall j n0, ~ usesIt (nodes h) j i -> nth_error (nodes h) j = Some n0 ->
        match n0 with MBlk _ _ _ _ => True | MSum a b | MProd a b => ~ usesIt (nodes h) a i /\ ~ usesIt (nodes h) b i | MScaled a _ => ~ usesIt (nodes h) a i end).
      { intros j n0 U Hj. assert (G : forall a, part n0 a -> ~ usesIt (nodes h) a i) by (intros a Ha V; apply U; eapply uses_trans; [eapply uses_part; eauto|exact V]).
        destruct n0; auto; try split; apply G; cbn; auto. }
      split; [apply nodes_set|]. intros j o Ho. rewrite nth_modifyAt in Ho.
      assert (exists o', nth_error h j = Some o' /\ bo_weak o' = bo_weak o /\ bo_map o' = bo_map o) as (o' & Ho' & EW & EM).
      { destruct (Nat.eqb_spec j i) as [->|NE]; [|eauto]. destruct (nth_error h i) as [o'|]; [|discriminate]. cbn in Ho. injection Ho as <-. eauto. }
      destruct (IH j o' Ho') as (H1 & H2). rewrite EW in H1. rewrite EM in H2.
      assert (TT : touched cs (nodes h) j -> touched (cs ++ [BSet i r k b]) (setNth (nodes h) i (MBlk ops' ran' dual' dom')) j).
      { intros (p & rc & H & U). exists p, rc. split; [rewrite !in_app_iff; tauto|]. apply UT. exact U. }
      split.
      + intros w Hw. destruct (H1 w Hw) as (Q & x & Wx & B). split; auto. exists x. split; auto. apply (@weak_transfer _ _ _ AG PT _ _ Wx). apply FREE; auto.
      + intros m Hm. destruct (H2 m Hm) as (Q & r0 & d & c' & Sx & B). split; auto. exists r0, d, c'. split; auto. apply (@spaces_transfer _ _ _ AG PT _ _ _ _ Sx). apply FREE; auto.
    - rewrite E, E'. eapply BInv_weaken; [|exact IH]. apply MON.
    - rewrite E. destruct (Nat.lt_ge_cases i (length h)) as [L|L].
      + assert (SUB : forall x, In x cs -> In x (cs ++ [c])) by (intros; apply in_app_iff; auto).
        assert (CALL : exists rc', In (BWeak rc' i) (cs ++ [c]) \/ In (BStrong rc' i) (cs ++ [c])).
        { exists rc. rewrite !in_app_iff. destruct C as [->| ->]; cbn; auto. }
        destruct (@weak_ex K mass (nodes h) O i) as (x & W); [rewrite nodes_length; auto|].
        destruct (@spaces_ex K (nodes h) O i) as (r & d & cc & Sx & _); [rewrite nodes_length; auto|].
        destruct C as [->| ->]; cbn [bstep].
        * apply (@byields_weak cs (cs ++ [BWeak rc i]) i rc h O IH SUB CALL x W (Datatypes.S (length h))). lia.
        * apply (@byields_strong cs (cs ++ [BStrong rc i]) i rc h O IH SUB CALL _ (SAny Sx W) (Datatypes.S (length h))). lia.
      + apply nth_error_None in L. assert (bstep mass h c = h) as ->.
        { destruct C as [->| ->]; cbn [bstep]; unfold bweak_form, bstrong_form, bstrongWith; cbn [bweakForm]; rewrite L; reflexivity. }
        eapply BInv_weaken; [|exact IH]. apply MON.
  Qed.
  Theorem bweak_history cs i rc x : setEarly mass cs -> weakIs mass (nodes (brun mass cs)) i x -> snd (bweak_form mass rc i (brun mass cs)) = bbuild x.
  Proof.
    intros SE W. assert (i < length (brun mass cs)) by (rewrite <- nodes_length; inversion W; apply nth_error_Some; congruence).
    apply (@byields_weak cs (cs ++ [BWeak rc i]) i rc (brun mass cs) (brun_older cs) (brun_inv SE)); auto.
    - intros; apply in_app_iff; auto.
    - exists rc. left. apply in_app_iff. cbn. auto.
  Qed.
  Theorem bstrong_history cs i rc x : setEarly mass cs -> strongIs mass (nodes (brun mass cs)) i x -> snd (bstrong_form mass rc i (brun mass cs)) = bbuild x.
  Proof.
    intros SE W. assert (i < length (brun mass cs)) by (rewrite <- nodes_length; inversion W as [? ? ? ? ? ? W']; inversion W'; apply nth_error_Some; congruence).
    apply (@byields_strong cs (cs ++ [BWeak rc i]) i rc (brun mass cs) (brun_older cs) (brun_inv SE)); auto.
    - intros; apply in_app_iff; auto.
    - exists rc. left. apply in_app_iff. cbn. auto.
  Qed.
  (** recomputing a plain array of operators uses its present blocks *)
  Theorem bweak_recompute cs i ops r d c : nth_error (nodes (brun mass cs)) i = Some (MBlk ops r d c) ->
    snd (bweak_form mass true i (brun mass cs)) = bbuild (XBlocks (map (map (option_map (@b_disc K))) ops)).
  Proof.
    intros N. pose proof N as N'. rewrite nth_nodes in N'. destruct (nth_error (brun mass cs) i) as [o|] eqn:Ho; [|discriminate]. cbn in N'. injection N' as Hn.
    unfold bweak_form. cbn [bweakForm]. rewrite Ho, Hn. cbn [bweakImpl]. destruct (complete (MBlk ops r d c)) eqn:C.
    - unfold bthen, bret. rewrite blocks_same. cbn [bbuild]. destruct (bind _ _) as [w| |] eqn:B; auto.
    - rewrite (incomplete_blocks (brun_older cs) i N C). reflexivity.
  Qed.
End Hist.
