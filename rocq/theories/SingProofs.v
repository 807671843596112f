(** Proofs about connectivity matrices and the singular part. *)
From Coq Require Import ZArith List Bool Arith Lia Permutation.
Import ListNotations.
From Verif Require Import Base AsmModel AsmSpec AsmProofs DofListModel DofListProofs SingModel SingSpec.
Set Implicit Arguments.
Unset Strict Implicit.

Lemma forallb_seq_ok {A} (p : A -> bool) l : (forall a, In a l -> p a = true) -> forallb p l = true.
Proof. intros H. now apply forallb_forall. Qed.

Lemma in_enumerate {A} (l : list A) i a : In (i, a) (enumerate l) <-> nth_error l i = Some a.
Proof.
  unfold enumerate. assert (G : forall s, In (i, a) (combine (seq s (length l)) l) <-> s <= i /\ nth_error l (i - s) = Some a).
  { induction l as [|b l IH]; intros s; cbn [length seq combine].
    - split; [intros []|]. intros [_ H]. destruct (i - s); discriminate.
    - cbn [In]. rewrite IH. split.
      + intros [[= -> ->]|[H1 H2]]; [rewrite Nat.sub_diag; cbn; auto|]. split; [lia|]. replace (i - s) with (S (i - S s)) by lia. exact H2.
      + intros [H1 H2]. destruct (Nat.eq_dec s i) as [->|N]; [rewrite Nat.sub_diag in H2; cbn in H2; left; congruence|]. right. split; [lia|].
        replace (i - s) with (S (i - S s)) in H2 by lia. exact H2. }
  rewrite G, Nat.sub_0_r. intuition lia.
Qed.

Local Open Scope Z_scope.
Lemma zsum_nonneg {A} (l : list A) (f : A -> Z) : (forall a, In a l -> 0 <= f a) -> 0 <= @bsum Zsr A l f.
Proof. induction l as [|a l IH]; intros H; [cbn; lia|]. rewrite bsum_cons. change (0 <= f a + @bsum Zsr A l f). specialize (H a (or_introl eq_refl)) as Ha. assert (0 <= @bsum Zsr A l f) by (apply IH; intros; apply H; now right). lia. Qed.
Lemma zsum_pos {A} (l : list A) (f : A -> Z) : (forall a, In a l -> 0 <= f a) -> (@bsum Zsr A l f <> 0 <-> exists a, In a l /\ f a <> 0).
Proof.
  induction l as [|a l IH]; intros H; [cbn; split; [lia|intros (b & [] & _)]|]. rewrite bsum_cons. change (f a + @bsum Zsr A l f <> 0 <-> exists b, In b (a :: l) /\ f b <> 0).
  pose proof (H a (or_introl eq_refl)) as Ha. assert (Hl : forall b, In b l -> 0 <= f b) by (intros; apply H; now right). pose proof (zsum_nonneg Hl) as Hs. specialize (IH Hl). split.
  - intros N. destruct (Z.eq_dec (f a) 0) as [E|E]; [|exists a; cbn; auto]. destruct (proj1 IH ltac:(lia)) as (b & Hb & Nb). exists b. cbn. auto.
  - intros (b & [<-|Hb] & Nb); [lia|]. assert (@bsum Zsr A l f <> 0) by (apply IH; eauto). lia.
Qed.
Local Close Scope Z_scope.

(** the matrix of sub-entities counts how often the sub-entity occurs in the element *)
Lemma connectivity_ok count els : (forall t a, In t els -> In a (subs t) -> a < count) ->
  exists m, connectivity count els = Some m /\ m_rows m = count /\ m_cols m = length els /\
    forall v e t, nth_error els e = Some t -> m_at m v e = Z.of_nat (count_occ Nat.eq_dec (subs t) v).
Proof.
  intros H. unfold connectivity, cooMatrix. set (es := flat_map _ _).
  assert (B : forallb (fun e => (fst (fst e) <? count) && (snd (fst e) <? length els)) es = true).
  { apply forallb_forall. intros [[a e] z] I. apply in_flat_map in I. destruct I as ([e' [[x y] w]] & I1 & I2). apply in_enumerate in I1.
    assert (e' < length els) by (apply (proj1 (nth_error_Some els e')); intros Z; pose proof (eq_trans (eq_sym I1) Z) as X; discriminate X). pose proof (nth_error_In _ _ I1) as I3.
    cbn [fst snd]. destruct I2 as [[= <- <- _]|[[= <- <- _]|[[= <- <- _]|[]]]]; apply andb_true_iff; split; apply Nat.ltb_lt; auto; apply (H _ _ I3); cbn; auto. }
  change (forallb _ es) with (forallb (fun e => (fst (fst e) <? count) && (snd (fst e) <? length els)) es). rewrite B. eexists. split; [reflexivity|]. split; [reflexivity|]. split; [reflexivity|].
  intros v e t E. cbn [m_at]. unfold es. rewrite bsum_flat_map.
  rewrite (@bsum_ext Zsr _ _ _ (fun p => if fst p =? e then Z.of_nat (count_occ Nat.eq_dec (subs (snd p)) v) else 0%Z)).
  - unfold enumerate. clear - E. assert (G : forall s, @bsum Zsr _ (combine (seq s (length els)) els) (fun p => if fst p =? s + e then Z.of_nat (count_occ Nat.eq_dec (subs (snd p)) v) else 0%Z) = Z.of_nat (count_occ Nat.eq_dec (subs t) v)).
    { revert e E. induction els as [|u l IH]; intros e E s; [destruct e; discriminate|]. cbn [length seq combine]. rewrite bsum_cons. cbn [fst snd]. destruct e as [|e].
      - cbn in E. injection E as ->. rewrite Nat.add_0_r, Nat.eqb_refl.
        rewrite (@bsum_zero Zsr).
        + apply Z.add_0_r.
        + intros [x y] I. cbn [fst snd]. apply in_combine_l in I. apply in_seq in I. destruct (Nat.eqb_spec x s); [lia|reflexivity].
      - cbn in E. destruct (Nat.eqb_spec s (s + S e)); [lia|]. etransitivity; [|apply (IH e E (S s))]. change (0 + ?x)%S with (0 + x)%Z. 
        replace (S s + e) with (s + S e) by lia. apply Z.add_0_l. }
    apply (G 0).
  - intros [e' [[a b] c]] _. rewrite !bsum_cons, bsum_nil. cbn [fst snd subs count_occ].
    change (@add Zsr) with Z.add. change (@zero Zsr) with 0%Z.
    destruct (Nat.eqb_spec e' e); [|rewrite !andb_false_r; reflexivity]. rewrite !andb_true_r.
    destruct (Nat.eqb_spec a v), (Nat.eqb_spec b v), (Nat.eqb_spec c v), (Nat.eq_dec a v), (Nat.eq_dec b v), (Nat.eq_dec c v); try contradiction; reflexivity.
Qed.

(** elements are paired when they touch *)
Lemma indexPairs_ok nv els V : (forall t a, In t els -> In a (subs t) -> a < nv) -> connectivity nv els = Some V ->
  forall e f, In (e, f) (indexPairs V) <-> touching els e f.
Proof.
  intros H EV e f. destruct (connectivity_ok H) as (m & Em & R & C & At). rewrite EV in Em. injection Em as <-.
  unfold indexPairs. rewrite filter_In, in_prod_iff, !in_seq, C, negb_true_iff, Z.eqb_neq. cbn [fst snd].
  assert (P : forall v e t, nth_error els e = Some t -> (m_at V v e <> 0%Z <-> In v (subs t))).
  { intros v x t E. rewrite (At v x t E). rewrite (count_occ_In Nat.eq_dec). lia. }
  split.
  - intros [[[_ Le] [_ Lf]] N]. cbn in Le, Lf. destruct (nth_error els e) as [s|] eqn:Es; [|apply nth_error_None in Es; lia]. destruct (nth_error els f) as [t|] eqn:Et; [|apply nth_error_None in Et; lia].
    unfold elementToElement in N. apply zsum_pos in N; [|intros v _; rewrite (At v e s Es), (At v f t Et); lia]. destruct N as (v & _ & N). exists s, t, v.
    split; [exact Es|]. split; [exact Et|]. split; [apply (P v e s Es)|apply (P v f t Et)]; intros Z; apply N; rewrite Z; [reflexivity|apply Z.mul_0_r].
  - intros (s & t & v & Es & Et & I1 & I2). assert (e < length els) by (apply nth_error_Some; congruence). assert (f < length els) by (apply nth_error_Some; congruence).
    split; [lia|]. unfold elementToElement. apply zsum_pos; [intros w _; rewrite (At w e s Es), (At w f t Et); lia|]. exists v. split; [apply in_seq; rewrite R; pose proof (H _ _ (nth_error_In _ _ Es) I1); lia|].
    apply (P v e s Es) in I1. apply (P v f t Et) in I2. intros Z. apply Z.mul_eq_0 in Z. tauto.
Qed.

Definition pair_dec (x y : nat * nat) : {x = y} + {x <> y}.
Proof. decide equality; apply Nat.eq_dec. Defined.

Section Sing.
  Variable K : star_ring.
  Add Ring KrS : (sr_ring K).
  Lemma mul_zero_r (a : K) : mul a zero = zero. Proof. ring. Qed.
  Variables T U : space K.
  Hypothesis GT : g2lInverse T.
  Hypothesis GU : g2lInverse U.
  Hypothesis RT : dofsInRange T.
  Hypothesis RU : dofsInRange U.
  Hypothesis WU : realWeights U.
  Variable els : list subEntities.

  Lemma in_globalDofs (S : space K) e (d : nat) : In (Z.of_nat d) (globalDofs S e) <-> exists i w, In (e, i, w) (support S d).
  Proof.
    unfold globalDofs. split.
    - intros I. apply in_map_iff in I. destruct I as ([g w] & E & I). cbn in E. subst g. apply In_nth_error in I. destruct I as (i & I). exists i, w. apply in_support.
      destruct (nth_error (sp_dofs S) e) as [ds|] eqn:X; [|rewrite nth_overflow in I by (now apply nth_error_None); destruct i; discriminate].
      exists ds. split; [reflexivity|]. now rewrite (nth_error_nth _ _ _ X) in I.
    - intros (i & w & I). apply in_support in I. destruct I as (ds & E1 & E2). rewrite (nth_error_nth _ _ _ E1). apply in_map_iff. exists (Z.of_nat d, w). split; [reflexivity|]. eapply nth_error_In; eauto.
  Qed.
  Lemma in_functionPairs pairs r c : In (r, c) (functionPairs T U pairs) <-> exists e f i w j v, In (e, f) pairs /\ In (e, i, w) (support T r) /\ In (f, j, v) (support U c).
  Proof.
    unfold functionPairs. rewrite in_flat_map. split.
    - intros ([e f] & P & I). cbn [fst snd] in I. apply in_flat_map in I. destruct I as (t & It & I). destruct (Z.ltb_spec (-1) t) as [Lt|]; [|destruct I].
      apply in_flat_map in I. destruct I as (u & Iu & I). destruct (Z.ltb_spec (-1) u) as [Lu|]; [|destruct I]. destruct I as [[= <- <-]|[]].
      rewrite <- (Z2Nat.id t) in It by lia. rewrite <- (Z2Nat.id u) in Iu by lia. apply in_globalDofs in It. apply in_globalDofs in Iu.
      destruct It as (i & w & It), Iu as (j & v & Iu). exists e, f, i, w, j, v. auto.
    - intros (e & f & i & w & j & v & P & It & Iu). exists (e, f). split; [exact P|]. cbn [fst snd]. apply in_flat_map. exists (Z.of_nat r). split; [apply in_globalDofs; eauto|].
      destruct (Z.ltb_spec (-1) (Z.of_nat r)); [|lia]. apply in_flat_map. exists (Z.of_nat c). split; [apply in_globalDofs; eauto|].
      destruct (Z.ltb_spec (-1) (Z.of_nat c)); [|lia]. left. now rewrite !Nat2Z.id.
  Qed.
  Lemma support_bound (S : space K) d e i w : dofsInRange S -> In (e, i, w) (support S d) -> d < sp_count S.
  Proof. intros R I. apply in_support in I. destruct I as (ds & E1 & E2). specialize (R ds _ _ (nth_error_In _ _ E1) (nth_error_In _ _ E2)). lia. Qed.
  Lemma localDofs_ok (S : space K) d : g2lInverse S -> d < sp_count S -> exists l, localDofs S d = Some l /\ Permutation l (support S d).
  Proof. intros G L. unfold localDofs. destruct (Nat.ltb_spec d (sp_count S)); [|lia]. now apply g2l_support. Qed.
  Lemma support_real c f j v : In (f, j, v) (support U c) -> conj v = v.
  Proof. intros I. apply in_support in I. destruct I as (ds & E1 & E2). exact (WU (nth_error_In _ _ E1) (nth_error_In _ _ E2)). Qed.

  Lemma sumOpt_ok {A} (l : list A) (f : A -> option K) (g : A -> K) : (forall a, In a l -> f a = Some (g a)) -> sumOpt l f = Some (bsum l g).
  Proof. induction l as [|a l IH]; intros H; cbn [sumOpt]; [reflexivity|]. rewrite (H a) by now left. rewrite IH by (intros; apply H; now right). now rewrite bsum_cons. Qed.

  Lemma lookup_ok {V} (pairs : list (nat * nat)) (g : nat * nat -> V) p : In p pairs -> lookup pairs (map g pairs) p = Some (g p).
  Proof.
    intros I. unfold lookup. destruct (find _ _) as [[q x]|] eqn:F.
    - apply find_some in F. destruct F as [F1 F2]. cbn [fst snd] in F2. apply andb_true_iff in F2. destruct F2 as [F2 F3]. apply Nat.eqb_eq in F2, F3.
      apply in_rev in F1. assert (X : x = g q). { clear - F1. induction pairs as [|a l IH]; [destruct F1|]. cbn in F1. destruct F1 as [[= -> ->]|F1]; auto. }
      cbn [snd]. rewrite X. f_equal. f_equal. destruct p, q; cbn in *; congruence.
    - exfalso. assert (I2 : In (p, g p) (rev (combine pairs (map g pairs)))).
      { apply -> in_rev. clear F. induction pairs as [|a l IH]; [destruct I|]. cbn. destruct I as [->|I]; auto. }
      pose proof (find_none _ _ F _ I2) as N. cbn [fst snd] in N. rewrite !Nat.eqb_refl in N. discriminate.
  Qed.

  Lemma collect_single {A} (l : list A) (f : A -> option K) (g : A -> K) : (forall a, In a l -> f a = Some (g a)) ->
    collect (fun a => match f a with Some x => Some [(a, x)] | None => None end) l = Some (map (fun a => (a, g a)) l).
  Proof. induction l as [|a l IH]; intros H; [reflexivity|]. cbn [collect map]. rewrite (H a) by now left. rewrite IH by (intros; apply H; now right). reflexivity. Qed.

  Variable A : nat -> nat -> nat -> nat -> K.
  Variable unique : list (nat * nat) -> list (nat * nat).
  Hypothesis UQ : removesDuplicates unique.
  Variable nv : nat.
  Hypothesis BND : forall t a, In t els -> In a (subs t) -> a < nv.

  Lemma singular_ok : exists m, singularPart true nv els T U A unique = Some m /\ m_rows m = sp_count T /\ m_cols m = sp_count U /\
    forall r c, (near els T U r c -> m_at m r c = galerkin T U A r c) /\ (~ near els T U r c -> m_at m r c = zero).
  Proof.
    unfold singularPart. cbn [negb]. destruct (connectivity_ok BND) as (V & EV & _). rewrite EV. cbv zeta.
    set (fps := unique (functionPairs T U (indexPairs V))).
    assert (IF : forall r c, In (r, c) fps <-> near els T U r c).
    { intros r c. unfold fps. rewrite (proj2 (UQ _)), in_functionPairs. split.
      - intros (e & f & i & w & j & v & P & I1 & I2). exists e, i, w, f, j, v. split; [exact I1|]. split; [exact I2|]. now apply (indexPairs_ok BND EV).
      - intros (e & i & w & f & j & v & I1 & I2 & P). exists e, f, i, w, j, v. split; [now apply (indexPairs_ok BND EV)|]. auto. }
    assert (NF : NoDup fps) by apply UQ.
    assert (LB : forall r c, In (r, c) fps -> r < sp_count T /\ c < sp_count U).
    { intros r c I. apply IF in I. destruct I as (e & i & w & f & j & v & I1 & I2 & _). split; eapply support_bound; eauto. }
    destruct (@collect_spec _ _ (elementPairs T U) fps) as (eps & EE & HE).
    { intros [r c] I. destruct (LB r c I) as [L1 L2]. unfold elementPairs. cbn [fst snd]. destruct (localDofs_ok GT L1) as (lt & -> & _), (localDofs_ok GU L2) as (lu & -> & _). discriminate. }
    rewrite EE. set (eps' := unique eps). set (look := lookup _ _).
    assert (D : forall fp, In fp fps -> dataEntry T U look fp = Some (galerkin T U A (fst fp) (snd fp))).
    { intros [r c] I. destruct (LB r c I) as [L1 L2]. unfold dataEntry. cbn [fst snd]. destruct (localDofs_ok GT L1) as (lt & E1 & P1), (localDofs_ok GU L2) as (lu & E2 & P2). rewrite E1, E2.
      rewrite (@sumOpt_ok _ lt _ (fun t => bsum lu (fun u => mul (mul (A (fst (fst t)) (fst (fst u)) (snd (fst t)) (snd (fst u))) (conj (snd t))) (conj (snd u))))).
      - f_equal. unfold galerkin. rewrite (bsum_perm _ P1). apply bsum_ext. intros [[e i] w] _. cbn [fst snd]. rewrite (bsum_perm _ P2). apply bsum_ext. intros [[f j] v] I2. cbn [fst snd]. rewrite (support_real I2). ring.
      - intros [[e i] w] I1. apply sumOpt_ok. intros [[f j] v] I2. cbn [fst snd]. unfold look. rewrite lookup_ok; [reflexivity|]. unfold eps'. apply UQ. apply HE.
        exists (r, c). eexists. split; [exact I|]. split; [unfold elementPairs; cbn [fst snd]; rewrite E1, E2; reflexivity|]. apply in_flat_map. exists (e, i, w). split; [exact I1|]. cbn [fst]. apply in_map_iff. exists (f, j, v). auto. }
    unfold fromIntegrationPairs. rewrite (collect_single D). unfold cooMatrix.
    assert (B : forallb (fun e : nat * nat * K => (fst (fst e) <? sp_count T) && (snd (fst e) <? sp_count U)) (map (fun a => (a, galerkin T U A (fst a) (snd a))) fps) = true).
    { apply forallb_forall. intros x I. apply in_map_iff in I. destruct I as ([r c] & <- & I). cbn [fst snd]. destruct (LB r c I). apply andb_true_iff. split; now apply Nat.ltb_lt. }
    rewrite B. eexists. split; [reflexivity|]. split; [reflexivity|]. split; [reflexivity|]. cbn [m_at]. intros r c. rewrite bsum_map. cbn [fst snd]. split.
    - intros N. apply IF in N. rewrite (@bsum_single K _ pair_dec fps (r, c)); cbn [fst snd]; try assumption.
      + now rewrite !Nat.eqb_refl.
      + intros [r' c'] _ Ne. cbn [fst snd]. destruct (Nat.eqb_spec r' r), (Nat.eqb_spec c' c); try reflexivity. exfalso. apply Ne. congruence.
    - intros N. apply bsum_zero. intros [r' c'] I. cbn [fst snd]. destruct (Nat.eqb_spec r' r), (Nat.eqb_spec c' c); try reflexivity. subst. exfalso. apply N. now apply IF.
  Qed.
End Sing.
