From Coq Require Import Reals ZArith List Bool Lia Lra.
Import ListNotations.
From Verif Require Import Base ArrayModel AsmModel SpaceModel QuadModel TopoProofs AccModel AccSpec AccProps LocalCacheModel LocalCacheSpec.
Set Implicit Arguments.

Lemma bind_ok A B (x : res A) (f : A -> res B) y : bind x f = Ok y <-> exists a, x = Ok a /\ f a = Ok y.
Proof. split; [destruct x; cbn; try discriminate; eauto | intros (a & -> & H); exact H]. Qed.
Lemma mapRes_cons A B (f : A -> res B) a l r : mapRes f (a :: l) = Ok r <-> exists b r', f a = Ok b /\ mapRes f l = Ok r' /\ r = b :: r'.
Proof.
  cbn. rewrite bind_ok. split.
  - intros (b & Hb & H). apply bind_ok in H as (r' & Hr & H). injection H as <-. eauto.
  - intros (b & r' & Hb & Hr & ->). exists b. split; auto. rewrite Hr. reflexivity.
Qed.
Lemma mapRes_ext_iff A B (f h : A -> res B) l : (forall a, In a l -> forall b, f a = Ok b <-> h a = Ok b) -> forall r, mapRes f l = Ok r <-> mapRes h l = Ok r.
Proof.
  induction l as [|a l IH]; intros H r; [reflexivity|]. rewrite !mapRes_cons.
  split; intros (b & r' & Hb & Hr & ->); exists b, r'; (split; [apply (H a (or_introl eq_refl)); auto|]);
    (split; [apply IH; auto; intros; apply H; right; auto | reflexivity]).
Qed.
Lemma mapRes_in A B (f : A -> res B) l r : mapRes f l = Ok r -> forall a b, In (a, b) (combine l r) -> f a = Ok b.
Proof.
  revert r. induction l as [|a l IH]; intros r H x y Hi; [destruct r; destruct Hi|].
  apply mapRes_cons in H as (b & r' & Hb & Hr & ->). destruct Hi as [Hi | Hi]; [injection Hi as <- <-; auto | eapply IH; eauto].
Qed.
Lemma mapRes_length A B (f : A -> res B) l r : mapRes f l = Ok r -> length r = length l.
Proof.
  revert r. induction l as [|a l IH]; intros r H; [injection H as <-; reflexivity|].
  apply mapRes_cons in H as (b & r' & Hb & Hr & ->). cbn. rewrite (IH _ Hr). reflexivity.
Qed.
Lemma mapRes_total A B (f : A -> res B) l : (forall a, In a l -> exists b, f a = Ok b) -> exists r, mapRes f l = Ok r.
Proof.
  induction l as [|a l IH]; intros H; [exists []; reflexivity|].
  destruct (H a (or_introl eq_refl)) as (b & Hb). destruct IH as (r & Hr); [intros; apply H; right; auto|].
  exists (b :: r). apply mapRes_cons. eauto.
Qed.

Section Eval.
  Variable K : star_ring.
  Variable ao : accuracy.
  Variables (g : sgeom) (g' : option sgeom) (testSh trialSh : nat -> nat).
  Variable setOrder : list variant -> list variant.
  Hypothesis HS : enumerates setOrder.
  Section Core.
    Variable c : cache K.
    Variable nominal : R.
    Variable fromCache : mat K -> res (mat K).
    Variable compute : variant -> nat * nat -> res (mat K).
    (** the value of one result slot *)
    Definition value (p : nat * nat) : res (mat K) :=
      if (fst p <? length (sg_corners g)) && (snd p <? trialCount g g') then
        bind (findCached c (fst p) (snd p)) (fun o =>
        match o with
        | Some m => fromCache m
        | None => bind (select ao g g' (fst p) (snd p) nominal) (fun d => compute (variantOf testSh trialSh (fst p) (snd p) d) p)
        end)
      else Undefined.
    Definition cellFin (vs : list variant) (q : option variant) (p : nat * nat) (r : option (mat K)) : res (option (mat K)) :=
      match q with
      | Some w => if in_dec variant_dec w vs then bind (compute w p) (fun m => Ok (Some m)) else Ok r
      | None => Ok r
      end.
    Fixpoint allCells (vs : list variant) (items : list (option variant * (nat * nat))) (results : list (option (mat K))) :=
      match items, results with
      | (q, p) :: is, r :: rs => bind (cellFin vs q p r) (fun r' => bind (allCells vs is rs) (fun rs' => Ok (r' :: rs')))
      | _, _ => Ok results
      end.
    Lemma integrateVariant_all v items results : integrateVariant compute v items results = allCells [v] items results.
    Proof.
      revert results. induction items as [|[q p] is IH]; intros [|r rs]; auto.
      cbn [integrateVariant allCells]. rewrite IH. f_equal. unfold cellFin. destruct q as [w|]; auto.
      destruct (variant_dec w v) as [->|N], (in_dec variant_dec _ [v]); auto; exfalso; cbn in *; intuition congruence.
    Qed.
    Lemma cellFin_app v vs q p r x : (exists r1, cellFin [v] q p r = Ok r1 /\ cellFin vs q p r1 = Ok x) <-> cellFin (v :: vs) q p r = Ok x.
    Proof.
      unfold cellFin. destruct q as [w|].
      - destruct (in_dec variant_dec w [v]) as [H1|H1], (in_dec variant_dec w vs) as [H2|H2], (in_dec variant_dec w (v :: vs)) as [H3|H3];
          try (exfalso; cbn in *; tauto).
        + split.
          * intros (r1 & A & B). exact B.
          * intros B. exists x. split; exact B.
        + split.
          * intros (r1 & A & B). congruence.
          * intros B. exists x. split; [exact B | reflexivity].
        + split.
          * intros (r1 & A & B). exact B.
          * intros B. exists r. split; auto.
        + split.
          * intros (r1 & A & B). congruence.
          * intros B. exists r. split; auto.
      - split; [intros (r1 & A & B); congruence | intros H; exists r; split; auto].
    Qed.
    Lemma allCells_app v vs items : forall results x,
      (exists r1, allCells [v] items results = Ok r1 /\ allCells vs items r1 = Ok x) <-> allCells (v :: vs) items results = Ok x.
    Proof.
      induction items as [|[q p] is IH]; intros [|r rs] x.
      - cbn. split; [intros (r1 & A & B); congruence | intros H; exists []; split; auto].
      - cbn. split; [intros (r1 & A & B); congruence | intros H; eexists; split; [reflexivity|auto]].
      - cbn. split; [intros (r1 & A & B); injection A as <-; exact B | intros H; exists []; split; auto].
      - cbn [allCells]. split.
        + intros (r1 & A & B). apply bind_ok in A as (a & A1 & A). apply bind_ok in A as (as' & A2 & A). injection A as <-.
          cbn [allCells] in B. apply bind_ok in B as (b & B1 & B). apply bind_ok in B as (bs & B2 & B). injection B as <-.
          assert (C1 : cellFin (v :: vs) q p r = Ok b) by (apply cellFin_app; eauto).
          assert (C2 : allCells (v :: vs) is rs = Ok bs) by (apply IH; eauto).
          rewrite C1. cbn [bind]. rewrite C2. reflexivity.
        + intros A. apply bind_ok in A as (a & A1 & A). apply bind_ok in A as (as' & A2 & A). injection A as <-.
          apply cellFin_app in A1 as (r1 & A1 & A1'). apply IH in A2 as (rs1 & A2 & A2').
          exists (r1 :: rs1). rewrite A1. cbn [bind]. rewrite A2. cbn [bind allCells]. split; auto.
          rewrite A1'. cbn [bind]. rewrite A2'. reflexivity.
    Qed.
    Lemma integrateAll_all vs items : forall results x, integrateAll compute vs items results = Ok x <-> allCells vs items results = Ok x.
    Proof.
      induction vs as [|v vs IH]; intros results x.
      - cbn. revert results x. induction items as [|[q p] is IHi]; intros [|r rs] x; try reflexivity.
        cbn [allCells]. unfold cellFin. replace (match q with Some w => if in_dec variant_dec w [] then _ else Ok r | None => Ok r end) with (Ok r) by (destruct q; reflexivity).
        cbn [bind]. specialize (IHi rs rs). destruct IHi as (E & _). rewrite E; auto. reflexivity.
      - cbn [integrateAll]. rewrite bind_ok, <- allCells_app. rewrite integrateVariant_all.
        split; intros (r1 & A & B); exists r1; (split; [exact A|]); apply IH; auto.
    Qed.
    Lemma core_iff pairs r : evalCore ao g g' testSh trialSh setOrder c nominal fromCache compute pairs = Ok r <-> mapRes value pairs = Ok r.
    Proof.
      unfold evalCore. rewrite bind_ok.
      assert (G : forall vs pairs rows r, mapRes (stage1 ao g g' testSh trialSh c nominal fromCache) pairs = Ok rows -> incl (somes (map fst rows)) vs ->
        (bind (allCells vs (combine (map fst rows) pairs) (map snd rows)) (@written (mat K)) = Ok r <-> mapRes value pairs = Ok r)).
      { intros vs ps. induction ps as [|p ps IH]; intros rows r0 H Hi.
        - injection H as <-. reflexivity.
        - apply mapRes_cons in H as (b & rows' & Hb & Hr & ->). rewrite mapRes_cons.
          assert (IHr : incl (somes (map fst rows')) vs). { intros v Hv. apply Hi. cbn. apply in_or_app. right; auto. }
          specialize (fun r => IH rows' r Hr IHr).
          cbn [map combine allCells].
          assert (V : exists w, cellFin vs (fst b) p (snd b) = w /\ forall m, (w = Ok (Some m) <-> value p = Ok m) /\ w <> Ok None).
          { eexists. split; [reflexivity|]. intros m. unfold stage1 in Hb. unfold value.
            destruct (_ && _); [|discriminate]. apply bind_ok in Hb as (o & Ho & Hb). rewrite Ho. cbn [bind].
            destruct o as [mm|].
            - apply bind_ok in Hb as (mr & Hm & Hb). injection Hb as <-. cbn. rewrite Hm. split; [split; congruence | discriminate].
            - apply bind_ok in Hb as (d & Hd & Hb). injection Hb as <-. rewrite Hd. cbn [bind cellFin fst snd].
              destruct (in_dec variant_dec (variantOf testSh trialSh (fst p) (snd p) d) vs) as [I|I].
              + destruct (compute _ p); cbn; split; try split; try congruence; discriminate.
              + exfalso. apply I. apply Hi. cbn. left. reflexivity. }
          destruct V as (w & Ew & Hw). rewrite Ew. split.
          + intros A. apply bind_ok in A as (l & A & W). apply bind_ok in A as (a & A1 & A). apply bind_ok in A as (as' & A2 & A). injection A as <-.
            destruct a as [m|]; [|discriminate W]. cbn in W. apply bind_ok in W as (l' & W1 & W). injection W as <-.
            exists m, l'. split; [apply Hw; auto|]. split; auto. apply IH. rewrite A2. exact W1.
          + intros (m & r' & Hm & Hr' & ->). apply Hw in Hm. rewrite Hm. cbn [bind]. apply IH in Hr'.
            apply bind_ok in Hr' as (l & Hl & W). rewrite Hl. cbn. rewrite W. reflexivity. }
      split.
      - intros (rows & Hr & H). rewrite <- (G (setOrder (somes (map fst rows))) pairs rows r Hr).
        + apply bind_ok in H as (l & Hl & W). apply integrateAll_all in Hl. rewrite Hl. exact W.
        + intros v Hv. apply (HS (somes (map fst rows))). exact Hv.
      - intros H. destruct (@mapRes_total _ _ (stage1 ao g g' testSh trialSh c nominal fromCache) pairs) as (rows & Hr).
        { clear G. intros p Hp. assert (exists m, value p = Ok m) as (m & Hm).
          { clear - H Hp. revert r H. induction pairs as [|q ps IH]; intros r H; [destruct Hp|].
            apply mapRes_cons in H as (b & r' & Hb & Hr & ->). destruct Hp as [<- | Hp]; eauto. }
          unfold value in Hm. unfold stage1. destruct (_ && _); [|discriminate]. apply bind_ok in Hm as (o & Ho & Hm). rewrite Ho. cbn [bind].
          destruct o as [mm|].
          - rewrite Hm. cbn. eauto.
          - apply bind_ok in Hm as (d & Hd & Hm). rewrite Hd. cbn. eauto. }
        exists rows. split; auto. apply (G (setOrder (somes (map fst rows))) pairs rows r Hr) in H.
        + apply bind_ok in H as (l & Hl & W). apply integrateAll_all in Hl. rewrite Hl. exact W.
        + intros v Hv. apply (HS (somes (map fst rows))). exact Hv.
    Qed.
  End Core.
End Eval.

(** ---- which pairs are cached ---- *)
Definition adjOk (elts : list (list Z)) (adj : list (list nat)) : Prop :=
  forall k l x, nth_error adj k = Some l -> In x l -> exists cs, nth_error elts x = Some cs /\ In (Z.of_nat k) cs.
Lemma zpush_ok elts adj adj' c e : adjOk elts adj -> (exists cs, nth_error elts e = Some cs /\ In c cs) -> zpush adj c e = Some adj' -> adjOk elts adj'.
Proof.
  unfold zpush, zget, zset. intros H (cs & He & Hc) E. destruct (c <? 0)%Z eqn:C; [discriminate|].
  destruct (nth_error adj (Z.to_nat c)) as [l0|] eqn:E0; [|discriminate].
  intros k l x Hk Hx. rewrite (upd_nth_error _ _ _ k E) in Hk. destruct (k =? Z.to_nat c) eqn:Ek.
  - apply Nat.eqb_eq in Ek. subst k. injection Hk as <-. apply in_app_or in Hx as [Hx | [<- | []]].
    + eapply H; eauto.
    + exists cs. split; auto. apply Z.ltb_ge in C. rewrite Z2Nat.id; auto.
  - eapply H; eauto.
Qed.
Lemma zpush_length (adj adj' : list (list nat)) c e : zpush adj c e = Some adj' -> length adj' = length adj.
Proof.
  unfold zpush, zget, zset. destruct (c <? 0)%Z; [discriminate|]. destruct (nth_error _ _); [|discriminate].
  intros E. apply (upd_length _ _ _ E).
Qed.
Lemma zpush_total (adj : list (list nat)) c e : (0 <= c < Z.of_nat (length adj))%Z -> exists adj', zpush adj c e = Some adj'.
Proof.
  intros H. unfold zpush, zget, zset. destruct (c <? 0)%Z eqn:C; [apply Z.ltb_lt in C; lia|].
  destruct (nth_error adj (Z.to_nat c)) eqn:E; [|apply nth_error_None in E; lia]. apply upd_Some. lia.
Qed.
Lemma addCorners_ok elts e cs0 : nth_error elts e = Some cs0 -> forall cs adj adj', incl cs cs0 -> adjOk elts adj -> addCorners e cs adj = Some adj' ->
  adjOk elts adj' /\ length adj' = length adj.
Proof.
  intros He. induction cs as [|c cs IH]; cbn; intros adj adj' Hi H E; [injection E as <-; auto|].
  destruct (0 <=? c)%Z.
  - destruct (zpush adj c e) as [a|] eqn:Ea; [|discriminate].
    destruct (IH a adj') as (A & B); auto.
    + intros x Hx. apply Hi. right; auto.
    + eapply zpush_ok; eauto. exists cs0. split; auto. apply Hi. left; auto.
    + split; auto. rewrite B. eapply zpush_length; eauto.
  - apply IH; auto. intros x Hx. apply Hi. right; auto.
Qed.
Lemma addCorners_total e cs : forall adj, Forall (fun c => c < Z.of_nat (length adj))%Z cs -> exists adj', addCorners e cs adj = Some adj' /\ length adj' = length adj.
Proof.
  induction cs as [|c cs IH]; cbn; intros adj H; [eauto|]. inversion H; subst.
  destruct (0 <=? c)%Z eqn:C; [|apply IH; auto]. apply Z.leb_le in C.
  destruct (@zpush_total adj c e) as (a & Ea); [lia|]. rewrite Ea. pose proof (zpush_length _ _ _ Ea) as L. rewrite <- L.
  apply IH. rewrite L. auto.
Qed.
Lemma adjacency_ok elts : forall rest e adj adj', (forall i cs, nth_error rest i = Some cs -> nth_error elts (e + i) = Some cs) ->
  adjOk elts adj -> adjacency e rest adj = Some adj' -> adjOk elts adj'.
Proof.
  induction rest as [|cs r IH]; cbn; intros e adj adj' Hr H E; [injection E as <-; auto|].
  destruct (addCorners e cs adj) as [a|] eqn:Ea; [|discriminate].
  eapply IH; [| |exact E].
  - intros i c Hi. replace (S e + i) with (e + S i) by lia. apply Hr. exact Hi.
  - eapply addCorners_ok; eauto; [|apply incl_refl]. specialize (Hr 0 cs eq_refl). rewrite Nat.add_0_r in Hr. auto.
Qed.
Lemma adjacency_total : forall rest e adj, Forall (Forall (fun c => c < Z.of_nat (length adj))%Z) rest -> exists adj', adjacency e rest adj = Some adj'.
Proof.
  induction rest as [|cs r IH]; cbn; intros e adj H; [eauto|]. inversion H; subst.
  destruct (@addCorners_total e cs adj) as (a & Ea & L); auto. rewrite Ea. apply IH. rewrite L. auto.
Qed.
Lemma pairInsert_in p q l : In q (pairInsert p l) -> q = p \/ In q l.
Proof.
  induction l as [|x l IH]; cbn; [intuition|]. destruct (pairLess p x); [cbn; intuition|].
  destruct (pairLess x p); cbn; intuition.
Qed.
Lemma fold_insert_in l : forall s q, In q (fold_left (fun s p => pairInsert p s) l s) -> In q s \/ In q l.
Proof.
  induction l as [|p l IH]; cbn; intros s q H; auto. apply IH in H as [H | H]; auto.
  apply pairInsert_in in H as [-> | H]; auto.
Qed.
Lemma repeat_nth A (x : A) n k y : nth_error (repeat x n) k = Some y -> y = x.
Proof. intros H. apply nth_error_In, repeat_spec in H. auto. Qed.
Lemma findPairs_touching g g' n pairs : findPairs g g' n = Ok pairs -> forall e f, In (e, f) pairs -> g' = None /\ touching g e f.
Proof.
  unfold findPairs. destruct g' as [h|]; [intros X; injection X as <-; intros e f []|].
  destruct (adjacency 0 (sg_corners g) (repeat [] n)) as [adj|] eqn:E; [|discriminate].
  intros X. injection X as <-. intros e f Hi. split; auto.
  apply fold_insert_in in Hi as [[] | Hi]. apply in_flat_map in Hi as (es & He & Hi).
  unfold vertexPairs in Hi. apply in_flat_map in Hi as (e1 & H1 & Hi). apply in_map_iff in Hi as (e2 & Hp & H2). injection Hp as <- <-.
  assert (A : adjOk (sg_corners g) adj).
  { eapply adjacency_ok; [| |exact E]; [intros; auto|]. intros k l x Hk Hx. apply repeat_nth in Hk. subst l. destruct Hx. }
  apply In_nth_error in He as (k & Hk).
  destruct (A _ _ _ Hk H1) as (c1 & C1 & D1). destruct (A _ _ _ Hk H2) as (c2 & C2 & D2).
  exists c1, c2, (Z.of_nat k). auto.
Qed.
Lemma findPairs_total g g' n : Forall (Forall (fun c => c < Z.of_nat n)%Z) (sg_corners g) -> exists pairs, findPairs g g' n = Ok pairs.
Proof.
  intros H. unfold findPairs. destruct g'; [eauto|].
  destruct (@adjacency_total (sg_corners g) 0 (repeat [] n)) as (a & Ea); [rewrite repeat_length; auto|]. rewrite Ea. eauto.
Qed.

(** ---- contents of the cache ---- *)
Lemma rowsFrom_snd l : forall cur nb, map snd (rowsFrom cur nb l) = l.
Proof. induction l as [|[e f] l IH]; cbn; intros cur nb; auto. destruct (f =? cur); cbn; rewrite IH; reflexivity. Qed.
Lemma cacheRows_snd l : map snd (cacheRows l) = l.
Proof. unfold cacheRows. destruct l as [|[e f] l]; auto. apply rowsFrom_snd. Qed.
Lemma maxRun_ge l : forall cur count best, Nat.max best count <= maxRun cur count best l.
Proof.
  induction l as [|[e f] l IH]; cbn; intros; [lia|]. destruct (f =? cur).
  - specialize (IH cur (S count) best). lia.
  - specialize (IH f 1 (Nat.max best count)). lia.
Qed.
Lemma rowsFrom_lt l : forall cur nb best k p, In (k, p) (rowsFrom cur nb l) -> k < maxRun cur nb best l.
Proof.
  induction l as [|[e f] l IH]; cbn; intros cur nb best k p H; [destruct H|]. destruct (f =? cur).
  - destruct H as [H | H]; [|eapply IH; eauto]. injection H as <- _. pose proof (maxRun_ge l cur (S nb) best). lia.
  - destruct H as [H | H]; [|eapply IH; eauto]. injection H as <- _. pose proof (maxRun_ge l f 1 (Nat.max best nb)). lia.
Qed.
Lemma cacheRows_lt l k p : In (k, p) (cacheRows l) -> k < maxNeighbours l.
Proof.
  unfold cacheRows, maxNeighbours. destruct l as [|[e f] l]; [intros []|]. cbn [rowsFrom]. rewrite Nat.eqb_refl.
  intros [H | H].
  - injection H as <- _. pose proof (maxRun_ge l f 1 0). lia.
  - eapply rowsFrom_lt; eauto.
Qed.

Section Cache.
  Variable K : star_ring.
  Variable ao : accuracy.
  Variables (g : sgeom) (g' : option sgeom) (testSh trialSh : nat -> nat).
  Variable integ : variant -> nat * nat -> mat K.
  Variable setOrder : list variant -> list variant.
  Variable pairs : list (nat * nat).
  Definition cellOk (f : nat) (x : cell K) : Prop :=
    x = (None, None) \/ exists e d, In (e, f) pairs /\ select ao g g' e f (-1) = Ok d /\
      x = (Some e, Some (integ (variantOf testSh trialSh e f d) (e, f))).
  Definition colsOk (n : nat) (cols : list (list (cell K))) : Prop :=
    length cols = trialCount g g' /\ forall f col, nth_error cols f = Some col -> length col = n /\ forall x, In x col -> cellOk f x.
  Definition itemOk (it : variant * (nat * (nat * nat))) : Prop :=
    let '(q, (nb, (e, f))) := it in In (e, f) pairs /\ exists d, select ao g g' e f (-1) = Ok d /\ q = variantOf testSh trialSh e f d.
  Lemma setCell_ok n cols nb f c cols' : colsOk n cols -> cellOk f c -> setCell cols nb f c = Some cols' -> colsOk n cols'.
  Proof.
    unfold setCell. intros (L & H) Hc E. destruct (nth_error cols f) as [col|] eqn:Ef; [|discriminate].
    destruct (upd col nb c) as [col'|] eqn:Eu; [|discriminate]. split; [rewrite (upd_length _ _ _ E); auto|].
    intros f' col1 Hf. rewrite (upd_nth_error _ _ _ f' E) in Hf. destruct (f' =? f) eqn:Eq; [|auto].
    apply Nat.eqb_eq in Eq. subst f'. injection Hf as <-. destruct (H f col Ef) as (Ln & Hx).
    split; [rewrite (upd_length _ _ _ Eu); auto|]. intros x Hi. apply In_nth_error in Hi as (k & Hk).
    rewrite (upd_nth_error _ _ _ k Eu) in Hk. destruct (k =? nb); [injection Hk as <-; auto | apply Hx; eapply nth_error_In; eauto].
  Qed.
  Lemma cacheVariant_ok n v items : forall cols cols', Forall itemOk items -> colsOk n cols -> cacheVariant integ v items cols = Ok cols' -> colsOk n cols'.
  Proof.
    induction items as [|[q [nb [e f]]] r IH]; cbn; intros cols cols' HI H E; [injection E as <-; auto|].
    apply Forall_cons_iff in HI as (HI & HR). destruct HI as (Hp & d & Hd & ->). destruct (variant_dec _ v) as [<-|]; [|eapply IH; eauto].
    destruct (setCell cols nb f _) as [c'|] eqn:Ec; [|discriminate]. eapply IH; [exact HR | | exact E].
    eapply setCell_ok; [exact H | | exact Ec]. right. exists e, d. auto.
  Qed.
  Lemma cacheVariant_total n v items : (forall q nb e f, In (q, (nb, (e, f))) items -> nb < n /\ f < trialCount g g') ->
    forall cols, Forall itemOk items -> colsOk n cols -> exists cols', cacheVariant integ v items cols = Ok cols'.
  Proof.
    induction items as [|[q [nb [e f]]] r IH]; cbn; intros HB cols HI H; [eauto|].
    apply Forall_cons_iff in HI as (HI & HR). destruct HI as (Hp & d & Hd & ->). destruct (variant_dec _ v) as [<-|]; [|eapply IH; eauto].
    destruct (HB _ _ _ _ (or_introl eq_refl)) as (B1 & B2).
    assert (exists c', setCell cols nb f (Some e, Some (integ (variantOf testSh trialSh e f d) (e, f))) = Some c') as (c' & Ec).
    { unfold setCell. destruct H as (L & H). destruct (nth_error cols f) as [col|] eqn:Ef; [|apply nth_error_None in Ef; lia].
      destruct (H _ _ Ef) as (Ln & _). destruct (@upd_Some _ col nb (Some e, Some (integ (variantOf testSh trialSh e f d) (e, f)))) as (col' & ->); [lia|].
      apply upd_Some. lia. }
    cbn [fst snd]. rewrite Ec. apply IH; eauto. eapply setCell_ok; [exact H | | exact Ec]. right. exists e, d. auto.
  Qed.
  Lemma cacheVariants_ok n items vs : forall cols cols', Forall itemOk items -> colsOk n cols -> cacheVariants integ vs items cols = Ok cols' -> colsOk n cols'.
  Proof.
    induction vs as [|v vs IH]; cbn; intros cols cols' HI H E; [injection E as <-; auto|].
    apply bind_ok in E as (c1 & E1 & E). eapply IH; [exact HI | | exact E]. eapply cacheVariant_ok; eauto.
  Qed.
  Lemma cacheVariants_total n items vs : (forall q nb e f, In (q, (nb, (e, f))) items -> nb < n /\ f < trialCount g g') ->
    forall cols, Forall itemOk items -> colsOk n cols -> exists cols', cacheVariants integ vs items cols = Ok cols'.
  Proof.
    intros HB. induction vs as [|v vs IH]; cbn; intros cols HI H; [eauto|].
    destruct (@cacheVariant_total n v items HB cols HI H) as (c1 & E1). rewrite E1. cbn [bind]. apply IH; auto. eapply cacheVariant_ok; eauto.
  Qed.
  Lemma colsOk_init n : colsOk n (repeat (repeat (None, None) n) (trialCount g g')).
  Proof.
    split; [apply repeat_length|]. intros f col H. apply repeat_nth in H. subst col. split; [apply repeat_length|].
    intros x Hx. apply repeat_spec in Hx. left. auto.
  Qed.
  Lemma items_ok qs : mapRes (fun p => bind (select ao g g' (fst p) (snd p) (-1)) (fun d => Ok (variantOf testSh trialSh (fst p) (snd p) d))) pairs = Ok qs ->
    Forall itemOk (combine qs (cacheRows pairs)).
  Proof.
    intros H.
    assert (G : forall rows ps qs, incl ps pairs -> map snd rows = ps ->
      mapRes (fun p => bind (select ao g g' (fst p) (snd p) (-1)) (fun d => Ok (variantOf testSh trialSh (fst p) (snd p) d))) ps = Ok qs ->
      Forall itemOk (combine qs rows)).
    { induction rows as [|[nb [e f]] rows IH]; intros ps qs0 Hi Es Hm.
      - destruct qs0; constructor.
      - cbn in Es. destruct ps as [|p ps]; [discriminate|]. injection Es as <- Es.
        apply mapRes_cons in Hm as (b & r' & Hb & Hr & ->). constructor.
        + cbn in *. split; [apply Hi; left; auto|]. apply bind_ok in Hb as (d & Hd & Hb). injection Hb as <-. eauto.
        + apply (IH ps r'); [|exact Es|exact Hr]. intros x Hx. apply Hi. right; auto. }
    eapply G; [apply incl_refl | apply cacheRows_snd | exact H].
  Qed.
  Lemma cache_found c : cacheLocalWeakForms ao g g' testSh trialSh integ setOrder pairs = Ok c ->
    forall e f, f < trialCount g g' ->
    findCached c e f = Ok None \/ exists d, In (e, f) pairs /\ select ao g g' e f (-1) = Ok d /\
      findCached c e f = Ok (Some (integ (variantOf testSh trialSh e f d) (e, f))).
  Proof.
    unfold cacheLocalWeakForms. intros E.
    assert (N : c = noCache K \/ exists n cols, c = Cache n cols /\ colsOk n cols).
    { destruct pairs as [|p0 ps] eqn:Ep; [injection E as <-; auto|]. rewrite <- Ep in *. right.
      apply bind_ok in E as (qs & Hq & E). apply bind_ok in E as (cols & Hc & E). injection E as <-.
      eexists _, cols. split; [reflexivity|]. eapply cacheVariants_ok; [eapply items_ok; eauto | apply colsOk_init | exact Hc]. }
    intros e f Hf. destruct N as [-> | (n & cols & -> & L & H)]; [left; reflexivity|].
    unfold findCached. cbn [ca_extent ca_cols]. destruct (n =? 0); [auto|].
    destruct (nth_error cols f) as [col|] eqn:Ef; [|apply nth_error_None in Ef; lia].
    destruct (H _ _ Ef) as (_ & Hx). clear - Hx.
    induction col as [|x r IH]; cbn; [auto|].
    destruct (Hx x (or_introl eq_refl)) as [-> | (e1 & d & Hi & Hd & ->)]; cbn.
    - apply IH. intros y Hy. apply Hx. right; auto.
    - destruct (e1 =? e) eqn:Ee.
      + apply Nat.eqb_eq in Ee. subst e1. right. exists d. auto.
      + apply IH. intros y Hy. apply Hx. right; auto.
  Qed.
End Cache.
