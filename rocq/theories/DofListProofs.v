From Verif Require Import Base AsmModel AsmSpec AsmProofs DofListModel DofListSpec.
From Coq Require Import Sorted.
Set Implicit Arguments.

Section SMap.
  Variables (Kt V : Type) (cmp : Kt -> Kt -> comparison).
  Hypothesis cmp_eq : forall a b, cmp a b = Eq <-> a = b.
  Hypothesis cmp_trans : forall a b c, cmp a b = Lt -> cmp b c = Lt -> cmp a c = Lt.
  Hypothesis cmp_anti : forall a b, cmp a b = Gt -> cmp b a = Lt.

  Definition sortedM (m : list (Kt * V)) := StronglySorted (fun x y => cmp (fst x) (fst y) = Lt) m.
  Lemma cmp_refl a : cmp a a = Eq.
  Proof. now apply cmp_eq. Qed.
  Lemma cmp_gt a b : cmp a b = Lt -> cmp b a = Gt.
  Proof.
    intros H. destruct (cmp b a) eqn:E; [|exfalso|reflexivity].
    - apply cmp_eq in E. subst. rewrite cmp_refl in H. discriminate.
    - pose proof (cmp_trans H E) as X. rewrite cmp_refl in X. discriminate.
  Qed.
  Lemma mget_none k (m : list (Kt * V)) : mget cmp k m = None <-> ~ In k (map fst m).
  Proof.
    induction m as [|[k' v'] m IH]; cbn [mget map In fst]; [tauto|]. destruct (cmp k k') eqn:E.
    - apply cmp_eq in E. subst. split; [discriminate|tauto].
    - rewrite IH. split; [intros H [<-|Hi]; [rewrite cmp_refl in E; discriminate|tauto]|tauto].
    - rewrite IH. split; [intros H [<-|Hi]; [rewrite cmp_refl in E; discriminate|tauto]|tauto].
  Qed.
  Lemma mget_some k v (m : list (Kt * V)) : sortedM m -> (mget cmp k m = Some v <-> In (k, v) m).
  Proof.
    induction 1 as [|[k' v'] m Hs IH Hf]; cbn [mget In]; [split; [discriminate|tauto]|].
    rewrite Forall_forall in Hf. destruct (cmp k k') eqn:E.
    - apply cmp_eq in E. subst k'. split; [intros H; inversion H; now left|]. intros [H|H]; [now inversion H|].
      specialize (Hf _ H). cbn in Hf. rewrite cmp_refl in Hf. discriminate.
    - rewrite IH. split; [tauto|]. intros [H|H]; [inversion H; subst; rewrite cmp_refl in E; discriminate|exact H].
    - rewrite IH. split; [tauto|]. intros [H|H]; [inversion H; subst; rewrite cmp_refl in E; discriminate|exact H].
  Qed.
  Lemma mset_In_keys k v (m : list (Kt * V)) x : In x (mset cmp k v m) -> x = (k, v) \/ In x m.
  Proof.
    induction m as [|[k' v'] m IH]; cbn [mset In]; [intuition|]. destruct (cmp k k'); cbn [In]; intuition.
  Qed.
  Lemma mset_sorted k v m : sortedM m -> sortedM (mset cmp k v m).
  Proof.
    induction 1 as [|[k' v'] m Hs IH Hf]; cbn [mset]; [repeat constructor|].
    pose proof Hf as Hf'. rewrite Forall_forall in Hf'. destruct (cmp k k') eqn:E.
    - apply cmp_eq in E. subst. constructor; [exact Hs|exact Hf].
    - constructor; [constructor; [exact Hs|exact Hf]|]. constructor; [exact E|]. rewrite Forall_forall. intros x Hx. cbn.
      eapply cmp_trans; [exact E|]. now apply Hf'.
    - constructor; [exact IH|]. rewrite Forall_forall. intros x Hx. apply mset_In_keys in Hx. destruct Hx as [->|Hx]; cbn; [now apply cmp_anti|now apply Hf'].
  Qed.
  Lemma mset_fresh k v (m : list (Kt * V)) : ~ In k (map fst m) -> Permutation (mset cmp k v m) ((k, v) :: m).
  Proof.
    induction m as [|[k' v'] m IH]; intros H; cbn [mset]; [reflexivity|]. cbn [map In fst] in H. destruct (cmp k k') eqn:E.
    - apply cmp_eq in E. subst. tauto.
    - reflexivity.
    - rewrite IH by tauto. apply perm_swap.
  Qed.
  Lemma mset_replace k v w (m : list (Kt * V)) : sortedM m -> In (k, w) m ->
    exists m', Permutation m ((k, w) :: m') /\ Permutation (mset cmp k v m) ((k, v) :: m').
  Proof.
    induction 1 as [|[k' v'] m Hs IH Hf]; intros Hin; [destruct Hin|]. cbn [mset]. rewrite Forall_forall in Hf.
    destruct Hin as [E|Hin].
    - inversion E; subst. rewrite cmp_refl. exists m. split; reflexivity.
    - pose proof (Hf _ Hin) as Hlt. cbn in Hlt. rewrite (cmp_gt Hlt). destruct (IH Hin) as (m' & P1 & P2).
      exists ((k', v') :: m'). split; [rewrite P1; apply perm_swap|rewrite P2; apply perm_swap].
  Qed.
  Lemma mset_keys_NoDup m : sortedM m -> NoDup (map fst m).
  Proof.
    induction 1 as [|[k' v'] m Hs IH Hf]; cbn; [constructor|]. constructor; [|exact IH]. intros Hi. apply in_map_iff in Hi.
    destruct Hi as ([k v] & <- & Hin). rewrite Forall_forall in Hf. specialize (Hf _ Hin). cbn in Hf. rewrite cmp_refl in Hf. discriminate.
  Qed.
End SMap.

Lemma ncmp_eq a b : Nat.compare a b = Eq <-> a = b.
Proof. apply Nat.compare_eq_iff. Qed.
Lemma ncmp_trans a b c : Nat.compare a b = Lt -> Nat.compare b c = Lt -> Nat.compare a c = Lt.
Proof. rewrite !Nat.compare_lt_iff. lia. Qed.
Lemma ncmp_anti a b : Nat.compare a b = Gt -> Nat.compare b a = Lt.
Proof. rewrite Nat.compare_gt_iff, Nat.compare_lt_iff. lia. Qed.
Lemma cmp2_eq a b : cmp2 a b = Eq <-> a = b.
Proof.
  destruct a as [a1 a2], b as [b1 b2]. unfold cmp2. cbn. destruct (Nat.compare a1 b1) eqn:E.
  - apply Nat.compare_eq in E. subst. rewrite Nat.compare_eq_iff. split; congruence.
  - apply Nat.compare_lt_iff in E. split; [discriminate|]. intros X. inversion X. lia.
  - apply Nat.compare_gt_iff in E. split; [discriminate|]. intros X. inversion X. lia.
Qed.
Lemma cmp2_lt a b : cmp2 a b = Lt <-> fst a < fst b \/ (fst a = fst b /\ snd a < snd b).
Proof.
  destruct a as [a1 a2], b as [b1 b2]. unfold cmp2. cbn. destruct (Nat.compare a1 b1) eqn:E.
  - apply Nat.compare_eq in E. rewrite Nat.compare_lt_iff. lia.
  - apply Nat.compare_lt_iff in E. intuition lia.
  - apply Nat.compare_gt_iff in E. split; [discriminate|lia].
Qed.
Lemma cmp2_trans a b c : cmp2 a b = Lt -> cmp2 b c = Lt -> cmp2 a c = Lt.
Proof. rewrite !cmp2_lt. lia. Qed.
Lemma cmp2_anti a b : cmp2 a b = Gt -> cmp2 b a = Lt.
Proof.
  rewrite cmp2_lt. destruct a as [a1 a2], b as [b1 b2]. unfold cmp2. cbn. destruct (Nat.compare a1 b1) eqn:E.
  - apply Nat.compare_eq in E. rewrite Nat.compare_gt_iff. lia.
  - discriminate.
  - apply Nat.compare_gt_iff in E. lia.
Qed.

(** two-level maps: insertion of fresh keys adds exactly one entry *)
Section Two.
  Variable V : Type.
  Definition flat2 (m : list (nat * list (nat * nat * V))) : list (nat * (nat * nat) * V) :=
    flat_map (fun g => map (fun x => (fst g, fst x, snd x)) (snd g)) m.
  Definition ins2 (m : list (nat * list (nat * nat * V))) (e : nat) (la : nat * nat) (w : V) :=
    mset Nat.compare e (mset cmp2 la w (mgetd Nat.compare e m [])) m.
  Definition ok2 (m : list (nat * list (nat * nat * V))) : Prop :=
    sortedM Nat.compare m /\ forall e g, In (e, g) m -> sortedM cmp2 g.
  Lemma flat_map_perm A B (f : A -> list B) l l' : Permutation l l' -> Permutation (flat_map f l) (flat_map f l').
  Proof.
    induction 1; cbn; auto.
    - now apply Permutation_app_head.
    - rewrite !app_assoc. apply Permutation_app_tail, Permutation_app_comm.
    - eapply perm_trans; eauto.
  Qed.
  Lemma ins2_ok m e la w : ok2 m -> ok2 (ins2 m e la w).
  Proof.
    intros [H1 H2]. split; [now apply mset_sorted; [apply ncmp_eq|apply ncmp_trans|apply ncmp_anti|]|].
    intros e' g Hin. apply mset_In_keys in Hin. destruct Hin as [E|Hin]; [|eapply H2; eauto]. inversion E; subst.
    apply mset_sorted; [apply cmp2_eq|apply cmp2_trans|apply cmp2_anti|]. unfold mgetd.
    destruct (mget Nat.compare e m) as [g|] eqn:Eg; [|constructor]. apply (mget_some ncmp_eq) in Eg; [|exact H1]. eapply H2; eauto.
  Qed.
  Lemma ins2_perm m e la w : ok2 m -> ~ In (e, la) (map fst (flat2 m)) -> Permutation (flat2 (ins2 m e la w)) ((e, la, w) :: flat2 m).
  Proof.
    intros [H1 H2] Hn. unfold ins2, mgetd. destruct (mget Nat.compare e m) as [g|] eqn:Eg.
    - apply (mget_some ncmp_eq) in Eg; [|exact H1].
      destruct (@mset_replace _ _ _ ncmp_eq ncmp_trans e (mset cmp2 la w g) g m H1 Eg) as (m' & P1 & P2).
      assert (Hla : ~ In la (map fst g)).
      { intros Hi. apply Hn. apply in_map_iff in Hi. destruct Hi as ([la' w'] & <- & Hi). apply in_map_iff.
        exists (e, la', w'). split; [reflexivity|]. unfold flat2. apply in_flat_map. exists (e, g). split; [exact Eg|].
        apply in_map_iff. exists (la', w'). auto. }
      unfold flat2. rewrite (flat_map_perm _ P2), (flat_map_perm _ P1). cbn [flat_map fst snd].
      rewrite (Permutation_map _ (@mset_fresh _ _ _ cmp2_eq la w g Hla)). reflexivity.
    - apply (@mget_none _ _ _ ncmp_eq) in Eg. unfold flat2. rewrite (flat_map_perm _ (@mset_fresh _ _ _ ncmp_eq e (mset cmp2 la w []) m Eg)).
      reflexivity.
  Qed.
  Lemma fold_ins2 (l : list (nat * (nat * nat) * V)) : forall m, ok2 m -> NoDup (map fst l ++ map fst (flat2 m)) ->
    let m' := fold_left (fun m x => let '(e, la, w) := x in ins2 m e la w) l m in
    ok2 m' /\ Permutation (flat2 m') (l ++ flat2 m).
  Proof.
    induction l as [|[[e la] w] l IH]; intros m Hm Hnd; cbn zeta; cbn [fold_left]; [split; [exact Hm|reflexivity]|].
    cbn [map fst app] in Hnd. inversion Hnd as [|? ? Hn Hnd']; subst.
    assert (P : Permutation (flat2 (ins2 m e la w)) ((e, la, w) :: flat2 m)).
    { apply ins2_perm; [exact Hm|]. intros Hi. apply Hn. apply in_app_iff. now right. }
    destruct (IH (ins2 m e la w)) as [H1 H2]; [now apply ins2_ok| |].
    - apply (Permutation_NoDup (l := (e, la) :: map fst l ++ map fst (flat2 m))); [|exact Hnd].
      rewrite (Permutation_map _ P). cbn [map fst]. apply Permutation_middle.
    - split; [exact H1|]. rewrite H2, P. symmetry. cbn [app]. apply Permutation_middle.
  Qed.
End Two.

(** mapM *)
Lemma mapM_Some A B (f : A -> option B) l r : mapM f l = Some r <-> Forall2 (fun a b => f a = Some b) l r.
Proof.
  revert r. induction l as [|a l IH]; intros r; cbn [mapM].
  - split; [intros H; inversion H; constructor|intros H; inversion H; reflexivity].
  - destruct (f a) as [b|] eqn:E.
    + destruct (mapM f l) as [bs|] eqn:El.
      * split; [intros H; inversion H; subst; constructor; [exact E|now apply IH]|].
        intros H; inversion H as [|? ? ? ? H1 H2]; subst. apply IH in H2. congruence.
      * split; [discriminate|]. intros H; inversion H as [|? ? ? ? H1 H2]; subst. apply IH in H2. congruence.
    + split; [discriminate|]. intros H; inversion H; subst; congruence.
Qed.
Lemma mapM_exists A B (f : A -> option B) l : (forall a, In a l -> exists b, f a = Some b) -> exists r, mapM f l = Some r.
Proof.
  induction l as [|a l IH]; intros H; cbn [mapM]; [eauto|]. destruct (H a) as [b ->]; [now left|].
  destruct IH as [r ->]; [intros; apply H; now right|]. eauto.
Qed.
Lemma mapM_nth A B (f : A -> option B) l r i : mapM f l = Some r -> nth_error r i = match nth_error l i with Some a => f a | None => None end.
Proof.
  intros H. apply mapM_Some in H. revert i. induction H as [|a b l r Hab H IH]; intros [|i]; cbn; auto.
Qed.
Lemma mapM_length A B (f : A -> option B) l r : mapM f l = Some r -> length r = length l.
Proof. intros H. apply mapM_Some in H. now induction H; cbn; congruence. Qed.

Section Lists.
  Variable K : star_ring.
  Implicit Type S : space K.
  Lemma in_support S d e i w : In (e, i, w) (support S d) <-> exists ds, nth_error (sp_dofs S) e = Some ds /\ nth_error ds i = Some (Z.of_nat d, w).
  Proof.
    unfold support. rewrite in_flat_map. split.
    - intros (e' & He & H). apply in_seq in He. apply in_flat_map in H. destruct H as (i' & Hi & H). apply in_seq in Hi.
      destruct (nth_error (nth e' (sp_dofs S) []) i') as [[g w']|] eqn:E; [|destruct H].
      destruct (Z.eqb_spec g (Z.of_nat d)); [|destruct H]. destruct H as [H|[]]. inversion H; subst.
      exists (nth e (sp_dofs S) []). split; [apply nth_error_nth'; lia|exact E].
    - intros (ds & E1 & E2). assert (He : e < length (sp_dofs S)) by (apply nth_error_Some; now rewrite E1).
      exists e. split; [apply in_seq; lia|]. apply in_flat_map. rewrite (nth_error_nth _ _ [] E1). exists i.
      split; [apply in_seq; assert (i < length ds) by (apply nth_error_Some; now rewrite E2); lia|]. rewrite E2, Z.eqb_refl. now left.
  Qed.
  Lemma support_NoDup S d : NoDup (map fst (support S d)).
  Proof.
    assert (E : map fst (support S d) = flat_map (fun e => map (fun i => (e, i)) (filter (fun i => match nth_error (nth e (sp_dofs S) []) i with
        Some (g, w) => (g =? Z.of_nat d)%Z | None => false end) (seq 0 (length (nth e (sp_dofs S) []))))) (seq 0 (length (sp_dofs S)))).
    { unfold support. rewrite flat_map_concat_map, concat_map, map_map, <- flat_map_concat_map. apply flat_map_ext. intros e.
      generalize (seq 0 (length (nth e (sp_dofs S) []))). induction l as [|i l IH]; [reflexivity|]. cbn [flat_map filter]. rewrite map_app, IH.
      destruct (nth_error (nth e (sp_dofs S) []) i) as [[g w]|]; [|reflexivity]. destruct (g =? Z.of_nat d)%Z; reflexivity. }
    rewrite E. apply NoDup_concat_map; [apply seq_NoDup| |].
    - intros e _. apply FinFun.Injective_map_NoDup; [intros x y H; congruence|]. apply NoDup_filter, seq_NoDup.
    - intros e e' x _ _ H1 H2. apply in_map_iff in H1, H2. destruct H1 as (i & <- & _), H2 as (j & E2 & _). congruence.
  Qed.
  Lemma NoDup_of_map A B (f : A -> B) l : NoDup (map f l) -> NoDup l.
  Proof. apply NoDup_map_inv. Qed.
  Lemma g2l_support S d : g2lInverse S -> d < sp_count S -> exists l, sp_g2l S d = Some l /\ Permutation l (support S d).
  Proof.
    intros H Hd. destruct (H d Hd) as (l & E & N & M). exists l. split; [exact E|]. apply NoDup_Permutation; [exact N|eapply NoDup_of_map, support_NoDup|].
    intros [[e i] w]. rewrite M, in_support. reflexivity.
  Qed.

  Lemma originalIndices_ok (p2o : list nat) start count : start + count <= length p2o ->
    originalIndices p2o start count = Some (map (fun i => nth (start + i) p2o 0) (seq 0 count)).
  Proof.
    intros H. apply mapM_Some. assert (G : forall l, (forall i, In i l -> start + i < length p2o) ->
      Forall2 (fun a b => nth_error p2o (start + a) = Some b) l (map (fun i => nth (start + i) p2o 0) l)).
    { induction l as [|i l IH]; intros Hl; cbn; constructor; [apply nth_error_nth', Hl; now left|]. apply IH. intros; apply Hl; now right. }
    apply G. intros i Hi. apply in_seq in Hi. lia.
  Qed.

  Lemma require_ins2 (l : list (nat * nat * K * nat)) : forall m,
    fold_left (@require K) l m = fold_left (fun m x => let '(e, la, w) := x in ins2 m e la w) (map (fun x => let '(e, i, w, a) := x in (e, (i, a), w)) l) m.
  Proof. induction l as [|[[[e i] w] a] l IH]; intros m; cbn [fold_left map]; [reflexivity|]. now rewrite IH. Qed.


  Lemma ins_perm S (p2o : list nat) start : g2lInverse S -> (forall d, In d p2o -> d < sp_count S) ->
    forall idx lds s, mapM (sp_g2l S) (map (fun i => nth (start + i) p2o 0) idx) = Some lds ->
    (forall i, In i idx -> start + i < length p2o) -> idx = seq s (length idx) ->
    Permutation (flat_map (fun al => let '(a, l) := al in map (fun x => let '(e, i, w) := x in (e, i, w, a)) l) (combine (seq s (length lds)) lds))
      (flat_map (fun a => map (fun x => let '(e, i, w) := x in (e, i, w, a)) (support S (nth (start + a) p2o 0))) idx).
  Proof.
    intros HS Hp. induction idx as [|i idx IH]; intros lds s Hm Hi Hseq; cbn [map mapM] in Hm.
    - inversion Hm. reflexivity.
    - destruct (@g2l_support S (nth (start + i) p2o 0) HS) as (l & El & Pl). { apply Hp, nth_In, Hi. now left. }
      rewrite El in Hm. destruct (mapM (sp_g2l S) _) as [lds'|] eqn:Em; [|discriminate]. inversion Hm; subst lds.
      cbn [length seq combine flat_map]. cbn [length seq] in Hseq. inversion Hseq as [[E1 E2]]. subst s. apply Permutation_app.
      + now apply Permutation_map.
      + rewrite <- E2. apply IH; [reflexivity|intros; apply Hi; now right|]. exact E2.
  Qed.

  Lemma wanted_NoDup S p2o start count : NoDup (map (fun x : nat * nat * K * nat => let '(e, i, w, a) := x in (e, (i, a))) (wanted S p2o start count)).
  Proof.
    unfold wanted. rewrite flat_map_concat_map, concat_map, map_map, <- flat_map_concat_map. apply NoDup_concat_map; [apply seq_NoDup| |].
    - intros a _. rewrite map_map. pose proof (support_NoDup S (nth (start + a) p2o 0)) as N.
      assert (E : map (fun x : nat * nat * K => let '(e, i, w, a0) := (let '(e, i, w) := x in (e, i, w, a)) in (e, (i, a0))) (support S (nth (start + a) p2o 0))
        = map (fun y => (fst y, (snd y, a))) (map fst (support S (nth (start + a) p2o 0)))).
      { rewrite map_map. apply map_ext. intros [[e i] w]. reflexivity. }
      rewrite E. apply FinFun.Injective_map_NoDup; [|exact N]. intros [x1 x2] [y1 y2] H. cbn in H. congruence.
    - intros a b x _ _ H1 H2. apply in_map_iff in H1, H2. destruct H1 as (y & <- & H1), H2 as (z & E2 & H2).
      apply in_map_iff in H1, H2. destruct H1 as ([[? ?] ?] & <- & _), H2 as ([[? ?] ?] & <- & _). congruence.
  Qed.

  Theorem range_ok S p2o start count : g2lInverse S -> validPerm S p2o -> start + count <= length p2o ->
    exists L, findLocalDofsRange S p2o start count = Some L /\
      dl_original L = map (fun i => nth (start + i) p2o 0) (seq 0 count) /\
      Permutation (entries L) (wanted S p2o start count) /\ NoDup (map fst (dl_groups L)).
  Proof.
    intros HS Hp Hc. unfold findLocalDofsRange. rewrite originalIndices_ok by exact Hc.
    destruct (@mapM_exists _ _ (sp_g2l S) (map (fun i => nth (start + i) p2o 0) (seq 0 count))) as (lds & El).
    { intros d Hd. apply in_map_iff in Hd. destruct Hd as (i & <- & Hi). apply in_seq in Hi.
      destruct (@g2l_support S (nth (start + i) p2o 0) HS) as (l & El & _); [apply Hp, nth_In; lia|eauto]. }
    rewrite El.
    pose proof (@ins_perm S p2o start HS Hp (seq 0 count) lds 0 El ltac:(intros i Hi; apply in_seq in Hi; lia) ltac:(now rewrite seq_length)) as P.
    change (combine (seq 0 (length lds)) lds) with (enumerate lds) in P.
    set (ins := flat_map _ (enumerate lds)) in *. rewrite require_ins2.
    set (ins' := map _ ins).
    assert (N : NoDup (map fst ins')).
    { unfold ins'. rewrite map_map. eapply Permutation_NoDup; [|apply (wanted_NoDup S p2o start count)].
      unfold wanted. rewrite <- (Permutation_map _ P). apply Permutation_refl'. apply map_ext. intros [[[? ?] ?] ?]. reflexivity. }
    destruct (@fold_ins2 K ins' []) as [O Q]; [split; [constructor|intros e g []]|cbn; now rewrite app_nil_r|].
    cbn [flat2 flat_map] in Q. rewrite app_nil_r in Q.
    eexists. split; [reflexivity|]. cbn [dl_original dl_groups]. split; [reflexivity|].
    set (m := fold_left _ ins' []) in *. split.
    - transitivity ins; [|exact P]. unfold entries. cbn [dl_groups].
      assert (E : forall m : list (nat * list (nat * nat * K)), flat_map (fun g : nat * list (nat * K * nat) => map (fun x => let '(l, w, a) := x in (fst g, l, w, a)) (snd g))
         (map (fun g : nat * list (nat * nat * K) => (fst g, map (fun x => let '((l, a), w) := x in (l, w, a)) (snd g))) m)
         = map (fun x => let '(e, (i, a), w) := x in (e, i, w, a)) (flat2 m)).
      { clear. induction m as [|[e g] m IH]; [reflexivity|]. cbn [map flat_map fst snd]. unfold flat2 in *. cbn [flat_map fst snd]. rewrite map_app, IH. f_equal.
        rewrite !map_map. apply map_ext. intros [[l a] w]. reflexivity. }
      rewrite E. rewrite (Permutation_map _ Q). unfold ins'. rewrite map_map. 
      rewrite (map_ext _ (fun x => x)); [now rewrite map_id|]. intros [[[? ?] ?] ?]. reflexivity.
    - rewrite map_map. cbn [fst]. destruct O as [O _]. now apply (mset_keys_NoDup ncmp_eq).
  Qed.

  Theorem single_ok S p2o index : g2lInverse S -> validPerm S p2o -> index < length p2o ->
    exists L, findLocalDofsSingle S p2o index = Some L /\ dl_original L = [nth index p2o 0] /\
      Permutation (entries L) (wanted S p2o index 1).
  Proof.
    intros HS Hp Hc. unfold findLocalDofsSingle. rewrite (nth_error_nth' p2o 0 Hc).
    destruct (@g2l_support S (nth index p2o 0) HS) as (l & El & Pl); [apply Hp, nth_In; lia|]. rewrite El.
    eexists. split; [reflexivity|]. split; [reflexivity|]. unfold entries, wanted. cbn [dl_groups seq flat_map]. rewrite Nat.add_0_r, app_nil_r.
    rewrite <- (Permutation_map _ Pl). apply Permutation_refl'. clear. induction l as [|[[e i] w] l IH]; [reflexivity|]. cbn [map flat_map fst snd app]. now rewrite IH.
  Qed.

  Theorem getLists_ok S p2o start count : g2lInverse S -> validPerm S p2o -> start + count <= length p2o ->
    exists L, getLists S p2o start count = Some L /\
      dl_original L = map (fun i => nth (start + i) p2o 0) (seq 0 count) /\
      Permutation (entries L) (wanted S p2o start count).
  Proof.
    intros HS Hp Hc. unfold getLists. destruct (Nat.eqb_spec count 1) as [->|Hne].
    - destruct (@single_ok S p2o start HS Hp) as (L & E & O & P); [lia|]. exists L. split; [exact E|]. split; [|exact P].
      rewrite O. cbn. now rewrite Nat.add_0_r.
    - destruct (@range_ok S p2o start count HS Hp Hc) as (L & E & O & P & _). exists L. auto.
  Qed.
End Lists.

(** ---- components ---- *)
Lemma enumerate_map_seq A (f : nat -> A) n : enumerate (map f (seq 0 n)) = map (fun i => (i, f i)) (seq 0 n).
Proof.
  unfold enumerate. rewrite map_length, seq_length. generalize 0. induction n as [|n IH]; intros a; [reflexivity|]. cbn. f_equal. apply IH.
Qed.
Lemma requireComp_ins2 (l : list (nat * nat * nat)) : forall m,
  fold_left requireComp l m = fold_left (fun m x => let '(e, la, w) := x in ins2 m e la w) (map (fun x => let '(p, c, i) := x in (p, (c, i), tt)) l) m.
Proof. induction l as [|[[p c] i] l IH]; intros m; cbn [fold_left map]; [reflexivity|]. now rewrite IH. Qed.
Theorem crange_ok p2o comps start count : 0 < comps -> start + count <= length p2o ->
  exists L, findComponentsRange p2o comps start count = Some L /\ Permutation (centries L) (cwanted p2o comps start count) /\ NoDup (map fst L).
Proof.
  intros Hc H. unfold findComponentsRange. destruct (Nat.eqb_spec comps 0); [lia|]. rewrite originalIndices_ok by exact H.
  rewrite enumerate_map_seq, map_map. rewrite requireComp_ins2. set (ins' := map _ (map _ (seq 0 count))).
  assert (N : NoDup (map fst ins')).
  { unfold ins'. rewrite !map_map. apply (NoDup_map_inv (fun x : nat * (nat * nat) => snd (snd x))). rewrite map_map. cbn. rewrite map_id. apply seq_NoDup. }
  destruct (@fold_ins2 unit ins' []) as [O Q]; [split; [constructor|intros e g []]|cbn; now rewrite app_nil_r|].
  cbn [flat2 flat_map] in Q. rewrite app_nil_r in Q. eexists. split; [reflexivity|]. set (m := fold_left _ ins' []) in *. split.
  - assert (E : forall m : list (nat * list (nat * nat * unit)), centries (map (fun g => (fst g, map fst (snd g))) m) = map (fun x => let '(e, (i, a), _) := x in (e, i, a)) (flat2 m)).
    { clear. unfold centries, flat2. induction m as [|[e g] m IH]; [reflexivity|]. cbn [map flat_map fst snd]. rewrite map_app, IH. f_equal.
      rewrite !map_map. apply map_ext. intros [[l a] w]. reflexivity. }
    rewrite E, (Permutation_map _ Q). unfold ins', cwanted. rewrite !map_map. reflexivity.
  - rewrite map_map. cbn [fst]. destruct O as [O _]. now apply (mset_keys_NoDup ncmp_eq).
Qed.
Theorem getComponents_ok p2o comps start count : 0 < comps -> start + count <= length p2o ->
  exists L, getComponents p2o comps start count = Some L /\ Permutation (centries L) (cwanted p2o comps start count) /\ NoDup (map fst L).
Proof.
  intros Hc H. unfold getComponents. destruct (Nat.eqb_spec count 1) as [->|Hne]; [|now apply crange_ok].
  unfold findComponentsSingle. destruct (Nat.eqb_spec comps 0); [lia|]. rewrite (nth_error_nth' p2o 0) by lia. eexists. split; [reflexivity|].
  split; [|cbn; repeat constructor; intros []]. unfold centries, cwanted. cbn. rewrite Nat.add_0_r. reflexivity.
Qed.
