From Coq Require Import List Arith Lia Bool Ring.
From Verif Require Import Base CxRing AsmModel MatAlg ArrayModel LocalCacheProofs IntgModel IntgSpec.
Import ListNotations.
Set Implicit Arguments.

(** ---- lists of blocks ---- *)
Lemma flat_length A B (h : A -> list B) n (l : list A) : (forall a, In a l -> length (h a) = n) -> length (flat_map h l) = n * length l.
Proof. induction l as [|a l IH]; intros E; cbn; [lia|]. rewrite app_length, IH, E by (cbn in *; auto). lia. Qed.
Lemma flat_nth B (h : nat -> list B) n c d : forall s i j, (forall a, length (h a) = n) -> i < n -> j < c ->
  nth (i + j * n) (flat_map h (seq s c)) d = nth i (h (s + j)) d.
Proof.
  induction c as [|c IH]; intros s i j E Hi Hj; [lia|]. cbn [seq flat_map].
  destruct j as [|j].
  - rewrite app_nth1 by (rewrite E; lia). f_equal; [lia|]. f_equal; lia.
  - rewrite app_nth2 by (rewrite E; nia). rewrite E. replace (i + S j * n - n) with (i + j * n) by nia.
    rewrite IH by (auto; lia). f_equal; f_equal; lia.
Qed.
Lemma map_seq_nth B (h : nat -> B) n i d : i < n -> nth i (map h (seq 0 n)) d = h i.
Proof. intros Hi. rewrite (nth_indep _ d (h 0)) by (rewrite map_length, seq_length; lia). rewrite map_nth, seq_nth by lia. reflexivity. Qed.
Lemma assert_ok b : assert b = Ok tt <-> b = true.
Proof. destruct b; cbn; split; congruence. Qed.
Lemma getAt_ok A (l : list A) i a : getAt l i = Ok a <-> nth_error l i = Some a.
Proof. unfold getAt. destruct (nth_error l i); split; congruence. Qed.
Lemma loop_app A is js (f : nat -> A -> res A) a : loop (is ++ js) f a = bind (loop is f a) (loop js f).
Proof. revert a; induction is as [|i r IH]; intros a; [reflexivity|]. cbn. destruct (f i a); cbn; auto. Qed.
Lemma loop_ext A is (f h : nat -> A -> res A) : (forall i a, In i is -> f i a = h i a) -> forall a, loop is f a = loop is h a.
Proof. induction is as [|i r IH]; intros E a; cbn; [reflexivity|]. rewrite E by (now left). destruct (h i a); cbn; auto. apply IH. intros; apply E; now right. Qed.
Lemma tabulate_ok A (f : nat -> res A) (h : nat -> A) is : (forall i, In i is -> f i = Ok (h i)) -> tabulate is f = Ok (map h is).
Proof. induction is as [|i r IH]; intros E; cbn; [reflexivity|]. rewrite E by (now left). cbn. rewrite IH by (intros; apply E; now right). reflexivity. Qed.

Section P.
  Variable K : star_ring.
  Add Ring Kring : (sr_ring K).
  Local Open Scope sr_scope.

  Lemma bsum_seq_mul a n m (f : nat -> K) :
    bsum (seq a (n * m)%nat) f = bsum (seq 0 m) (fun p => bsum (seq 0 n) (fun d => f (a + d + p * n)%nat)).
  Proof.
    revert a; induction m as [|m IH]; intros a.
    - rewrite Nat.mul_0_r. reflexivity.
    - replace (n * S m)%nat with (n + n * m)%nat by lia. rewrite bsum_seq_split. cbn [seq]. rewrite bsum_cons.
      rewrite (bsum_seq_shift a n). f_equal.
      + apply bsum_ext. intros d _. f_equal. lia.
      + rewrite IH. rewrite (bsum_seq_shift 1 m). apply bsum_ext. intros p _. apply bsum_ext. intros d _. f_equal. lia.
  Qed.
  Lemma loop_sum (f : nat -> K -> res K) (h : nat -> K) is : (forall i s, In i is -> f i s = Ok (s + h i)) ->
    forall s, loop is f s = Ok (s + bsum is h).
  Proof.
    induction is as [|i r IH]; intros E s; cbn [loop]; [rewrite bsum_nil; f_equal; ring|].
    rewrite E by (now left). cbn [bind]. rewrite IH by (intros; apply E; now right). rewrite bsum_cons. f_equal. ring.
  Qed.

  (** ---- Eigen maps ---- *)
  Lemma store_length (m : mat K) : length (store m) = (m_rows m * m_cols m)%nat.
  Proof. unfold store. rewrite flat_length with (n := m_rows m); [rewrite seq_length; reflexivity|]. intros. rewrite map_length, seq_length. reflexivity. Qed.
  Lemma store_nth (m : mat K) i j : i < m_rows m -> j < m_cols m -> nth (i + j * m_rows m) (store m) 0 = m_at m i j.
  Proof.
    intros Hi Hj. unfold store. rewrite flat_nth; auto.
    - rewrite map_seq_nth by auto. reflexivity.
    - intros. rewrite map_length, seq_length. reflexivity.
  Qed.
  Lemma emap_ok (v : list K) r c : 0 < length v -> (r * c <= length v)%nat -> emap v r c = Ok (Mat r c (fun i j => nth (i + j * r) v 0)).
  Proof.
    intros Hv Hl. unfold emap. replace (length v =? 0) with false by (symmetry; apply Nat.eqb_neq; lia).
    replace (r * c <=? length v) with true by (symmetry; apply Nat.leb_le; auto). reflexivity.
  Qed.

  (** ---- reordered buffers ---- *)
  Lemma reorderW_length w (v : arr3 K) : length (reorderWeighted w v) = (x1 v * x0 v * x2 v)%nat.
  Proof. unfold reorderWeighted. rewrite flat_length with (n := (x1 v * x0 v)%nat); [rewrite seq_length; reflexivity|]. intros. rewrite store_length. reflexivity. Qed.
  Lemma reorderW_nth w (v : arr3 K) f d p : f < x1 v -> d < x0 v -> p < x2 v ->
    nth (f + d * x1 v + p * (x1 v * x0 v)) (reorderWeighted w v) 0 = w p * conj (a3 v d f p).
  Proof.
    intros Hf Hd Hp. unfold reorderWeighted. rewrite flat_nth.
    - replace (0 + p)%nat with p by lia.
      set (m := mScale (w p) (mH (sliceMat v p))).
      change (x1 v) with (m_rows m) at 1. rewrite store_nth by auto. cbn. unfold a3.
      replace (d + x0 v * f + x0 v * x1 v * p)%nat with (p * (x0 v * x1 v) + (d + f * x0 v))%nat by lia. reflexivity.
    - intros. rewrite store_length. reflexivity.
    - nia.
    - auto.
  Qed.
  Lemma reorder_length (v : arr3 K) : length (reorder v) = (x1 v * x0 v * x2 v)%nat.
  Proof. unfold reorder. rewrite flat_length with (n := (x1 v * x0 v)%nat); [rewrite seq_length; reflexivity|]. intros. rewrite store_length. reflexivity. Qed.
  Lemma reorder_nth (v : arr3 K) f d p : f < x1 v -> d < x0 v -> p < x2 v ->
    nth (f + d * x1 v + p * (x1 v * x0 v)) (reorder v) 0 = conj (a3 v d f p).
  Proof.
    intros Hf Hd Hp. unfold reorder. rewrite flat_nth.
    - replace (0 + p)%nat with p by lia.
      set (m := mH (sliceMat v p)).
      change (x1 v) with (m_rows m) at 1. rewrite store_nth by auto. cbn. unfold a3.
      replace (d + x0 v * f + x0 v * x1 v * p)%nat with (p * (x0 v * x1 v) + (d + f * x0 v))%nat by lia. reflexivity.
    - intros. rewrite store_length. reflexivity.
    - nia.
    - auto.
  Qed.

  Lemma reals_nth (l : list K) p : reals l -> conj (nth p l 0) = nth p l 0.
  Proof.
    intros H. destruct (Nat.lt_ge_cases p (length l)) as [Hp|Hp].
    - unfold reals in H. rewrite Forall_forall in H. apply H. apply nth_In. auto.
    - rewrite nth_overflow by auto. apply conj_zero.
  Qed.

  (** One transformation. *)
  Definition term4 (test trial : arr3 K) (kernel : arr4 K) (testGeom trialGeom : geom K) (testW trialW : list K) f g : K :=
    bsum (seq 0 (length testW)) (fun p => bsum (seq 0 (length trialW)) (fun q =>
      quadWeight testGeom testW p * quadWeight trialGeom trialW q *
      (bsum (seq 0 (x0 test)) (fun d => conj (a3 test d f p) * a3 trial d g q) * a4 kernel 0 0 p q))).

  Section Step.
    Variables (testGeom trialGeom : geom K) (tests trials : list (arr3 K)) (kernels : list (arr4 K)) (testW trialW : list K) (rows cols : nat).
    Hypothesis D : tensorData testGeom trialGeom tests trials kernels testW trialW rows cols.

    Lemma qw_real_test p : conj (quadWeight testGeom testW p) = quadWeight testGeom testW p.
    Proof. unfold quadWeight. rewrite conj_mul. destruct (td_real D) as (A & B & C & E). rewrite !reals_nth; auto. Qed.
    Lemma qw_real_trial p : conj (quadWeight trialGeom trialW p) = quadWeight trialGeom trialW p.
    Proof. unfold quadWeight. rewrite conj_mul. destruct (td_real D) as (A & B & C & E). rewrite !reals_nth; auto. Qed.

    Lemma tensorStep_ok t test trial kernel (m : mat K) :
      nth_error tests t = Some test -> nth_error trials t = Some trial ->
      nth_error kernels (if length kernels =? 1 then 0 else t) = Some kernel ->
      m_rows m = rows -> m_cols m = cols ->
      exists m', tensorStep testGeom trialGeom tests trials kernels testW trialW rows cols t m = Ok m' /\
        m_rows m' = rows /\ m_cols m' = cols /\
        forall f g, f < rows -> g < cols -> m_at m' f g = m_at m f g + term4 test trial kernel testGeom trialGeom testW trialW f g.
    Proof.
      intros H1 H2 H3 Hr Hc.
      pose proof (nth_error_In _ _ H1) as I1. pose proof (nth_error_In _ _ H2) as I2. pose proof (nth_error_In _ _ H3) as I3.
      destruct (td_test D) as [_ V1]. destruct (td_trial D) as [_ V2]. pose proof (td_kernels D) as V3. unfold grid4 in V3.
      rewrite Forall_forall in V1, V2, V3.
      destruct (V1 _ I1) as (A1 & A2 & A3 & A4). destruct (V2 _ I2) as (B1 & B2 & B3 & B4). destruct (V3 _ I3) as (C1 & C2 & C3 & C4 & C5).
      destruct (td_dofs D) as [Dr Dc]. destruct (td_points D) as [Pt Pr]. destruct (td_ie D) as [E1 E2].
      assert (Hd : x0 trial = x0 test).
      { clear - H1 H2 D. pose proof (td_match D) as M. unfold matching in M. clear D. revert t H1 H2.
        induction M as [|a b l l' Hab M IH]; intros [|t] H1 H2; cbn in *; try discriminate; [congruence|]. apply (IH t); auto. }
      unfold tensorStep. cbv zeta. unfold getAt. rewrite H1, H2. cbn [bind].
      replace ((0 <? x0 test) && (x0 trial =? x0 test)) with true
        by (symmetry; apply andb_true_intro; split; [apply Nat.ltb_lt; auto | apply Nat.eqb_eq; auto]).
      cbn [assert bind]. rewrite H3. cbn [bind].
      assert (Lk : (0 < length testW * length trialW)%nat) by nia.
      rewrite emap_ok by (rewrite ?C5; nia). cbn [bind].
      rewrite E1, E2, !Nat.leb_refl. cbn [andb assert bind].
      set (mk := Mat (length testW) (length trialW) (fun i j => nth (i + j * length testW) (st4 kernel) 0)).
      assert (Mk : forall p q, m_at mk p q = a4 kernel 0 0 p q).
      { intros. unfold mk, a4. cbn [m_at]. rewrite C1, C2, C3. f_equal. lia. }
      pose proof (reorderW_length (quadWeight trialGeom trialW) trial) as Lr. rewrite B1, B2, Hd in Lr.
      pose proof (reorderW_length (quadWeight testGeom testW) test) as Lt. rewrite A1, A2 in Lt.
      assert (Xr : forall g d q, g < cols -> d < x0 test -> q < length trialW ->
        nth (g + d * cols + q * (cols * x0 test)) (reorderWeighted (quadWeight trialGeom trialW) trial) 0 = quadWeight trialGeom trialW q * conj (a3 trial d g q)).
      { intros g d q Hg Hdd Hq. pose proof (@reorderW_nth (quadWeight trialGeom trialW) trial g d q) as X. rewrite B1, B2, Hd in X. apply X; auto. }
      assert (Xt : forall f d p, f < rows -> d < x0 test -> p < length testW ->
        nth (f + d * rows + p * (rows * x0 test)) (reorderWeighted (quadWeight testGeom testW) test) 0 = quadWeight testGeom testW p * conj (a3 test d f p)).
      { intros f d p Hf Hdd Hp. pose proof (@reorderW_nth (quadWeight testGeom testW) test f d p) as X. rewrite A1, A2 in X. apply X; auto. }
      assert (P1 : (0 < cols * x0 test * length trialW)%nat) by (apply Nat.mul_pos_pos; [apply Nat.mul_pos_pos|]; auto).
      assert (P2 : (0 < rows * x0 test * length testW)%nat) by (apply Nat.mul_pos_pos; [apply Nat.mul_pos_pos|]; auto).
      destruct (cols <=? rows) eqn:Cmp.
      - rewrite emap_ok by (rewrite Lr; lia). cbn [bind].
        set (mt := Mat (cols * x0 test) (length trialW) _).
        assert (Ls : length (store (mMul mt (mH mk))) = (cols * x0 test * length testW)%nat) by (rewrite store_length; reflexivity).
        assert (P3 : (0 < cols * x0 test * length testW)%nat) by (apply Nat.mul_pos_pos; [apply Nat.mul_pos_pos|]; auto).
        rewrite emap_ok by (rewrite Ls; nia). cbn [bind].
        rewrite emap_ok by (rewrite Lt; nia). cbn [bind].
        eexists. split; [reflexivity|]. cbn [m_rows m_cols mAdd m_at mMul mH]. split; [auto|]. split; [auto|].
        intros f g Hf Hg. f_equal. rewrite bsum_seq_mul. unfold term4. apply bsum_ext. intros p Hp. apply in_seq in Hp.
        transitivity (bsum (seq 0 (x0 test)) (fun d => bsum (seq 0 (length trialW)) (fun q =>
          quadWeight testGeom testW p * conj (a3 test d f p) * (quadWeight trialGeom trialW q * a3 trial d g q * a4 kernel 0 0 p q)))).
        + apply bsum_ext. intros d Hdd. apply in_seq in Hdd. rewrite Nat.add_0_l.
          replace (f + (d + p * x0 test) * rows)%nat with (f + d * rows + p * (rows * x0 test))%nat by lia. rewrite Xt by lia.
          replace (g + (d + p * x0 test) * cols)%nat with ((g + d * cols) + p * m_rows (mMul mt (mH mk)))%nat by (cbn; lia).
          rewrite store_nth by (cbn; nia). cbn [mMul m_at m_cols mH]. rewrite bsum_conj, <- bsum_mul_l.
          apply bsum_ext. intros q Hq. apply in_seq in Hq. rewrite Mk.
          unfold mt. cbn [m_at m_rows m_cols]. replace (g + d * cols + q * (cols * x0 test))%nat with (g + d * cols + q * (cols * x0 test))%nat by lia.
          rewrite Xr by lia. rewrite !conj_mul, !conj_invol, qw_real_trial. ring.
        + rewrite bsum_swap. apply bsum_ext. intros q _.
          rewrite <- bsum_mul_r, <- bsum_mul_l. apply bsum_ext. intros d _. ring.
      - rewrite emap_ok by (rewrite Lt; lia). cbn [bind].
        set (mt := Mat (rows * x0 test) (length testW) _).
        assert (Ls : length (store (mMul mt mk)) = (rows * x0 test * length trialW)%nat) by (rewrite store_length; reflexivity).
        assert (P3 : (0 < rows * x0 test * length trialW)%nat) by (apply Nat.mul_pos_pos; [apply Nat.mul_pos_pos|]; auto).
        rewrite emap_ok by (rewrite Ls; nia). cbn [bind].
        rewrite emap_ok by (rewrite Lr; nia). cbn [bind].
        eexists. split; [reflexivity|]. cbn [m_rows m_cols mAdd m_at mMul mH]. split; [auto|]. split; [auto|].
        intros f g Hf Hg. f_equal. rewrite bsum_seq_mul. unfold term4. etransitivity; [|apply bsum_swap]. apply bsum_ext. intros q Hq. apply in_seq in Hq.
        transitivity (bsum (seq 0 (x0 test)) (fun d => bsum (seq 0 (length testW)) (fun p =>
          quadWeight testGeom testW p * conj (a3 test d f p) * (quadWeight trialGeom trialW q * a3 trial d g q * a4 kernel 0 0 p q)))).
        + apply bsum_ext. intros d Hdd. apply in_seq in Hdd. rewrite Nat.add_0_l.
          replace (g + (d + q * x0 test) * cols)%nat with (g + d * cols + q * (cols * x0 test))%nat by lia. rewrite Xr by lia.
          replace (f + (d + q * x0 test) * rows)%nat with ((f + d * rows) + q * m_rows (mMul mt mk))%nat by (cbn; lia).
          rewrite store_nth by (cbn; nia). cbn [mMul m_at m_cols]. rewrite <- bsum_mul_r.
          apply bsum_ext. intros p Hp. apply in_seq in Hp. rewrite Mk.
          unfold mt. cbn [m_at m_rows m_cols].
          rewrite Xt by lia. rewrite !conj_mul, !conj_invol, qw_real_trial. ring.
        + rewrite bsum_swap. apply bsum_ext. intros p _.
          rewrite <- bsum_mul_r, <- bsum_mul_l. apply bsum_ext. intros d _. ring.
    Qed.
  End Step.

  Definition dim2 (r c : nat) (m : mat K) : Prop := m_rows m = r /\ m_cols m = c.
  Lemma loop_terms (step : nat -> mat K -> res (mat K)) (term : nat -> nat -> nat -> K) r c n :
    (forall t m, t < n -> dim2 r c m -> exists m', step t m = Ok m' /\ dim2 r c m' /\
       forall f g, f < r -> g < c -> m_at m' f g = m_at m f g + term t f g) ->
    forall m, dim2 r c m -> exists m', loop (seq 0 n) step m = Ok m' /\ dim2 r c m' /\
       forall f g, f < r -> g < c -> m_at m' f g = m_at m f g + bsum (seq 0 n) (fun t => term t f g).
  Proof.
    induction n as [|n IH]; intros H m Hm.
    - exists m. split; [reflexivity|]. split; [auto|]. intros. cbn [seq]. rewrite bsum_nil. ring.
    - destruct (IH (fun t m' Ht => H t m' (Nat.lt_lt_succ_r _ _ Ht)) m Hm) as (m1 & E1 & D1 & V1).
      destruct (H n m1 (Nat.lt_succ_diag_r n) D1) as (m2 & E2 & D2 & V2).
      exists m2. rewrite seq_S, loop_app, E1. cbn [bind loop Nat.add]. rewrite E2. cbn [bind]. split; [reflexivity|].
      split; [auto|]. intros f g Hf Hg. rewrite V2, V1 by auto. rewrite bsum_app, bsum_cons, bsum_nil. ring.
  Qed.
  Lemma bsum_nth A (l : list A) (d : A) (h : A -> K) : bsum l h = bsum (seq 0 (length l)) (fun i => h (nth i l d)).
  Proof.
    induction l as [|a l IH]; [reflexivity|]. cbn [length seq]. rewrite !bsum_cons. f_equal.
    rewrite IH, (bsum_seq_shift 1). apply bsum_ext. reflexivity.
  Qed.
End P.

Lemma kernelsFor_length A n (ks : list A) : kernelCount n (length ks) -> length (kernelsFor n ks) = n.
Proof.
  intros H. unfold kernelsFor. destruct ks as [|k [|k' r]]; cbn in *; rewrite ?repeat_length; unfold kernelCount in *; lia.
Qed.
Lemma kernelsFor_nth A n (ks : list A) d t : t < n -> nth t (kernelsFor n ks) d = nth (if length ks =? 1 then 0 else t) ks d.
Proof.
  intros H. unfold kernelsFor. destruct ks as [|k [|k' r]]; try reflexivity. cbn [length Nat.eqb nth].
  revert t H. induction n as [|n IH]; intros t H; [lia|]. destruct t; cbn; [reflexivity|]. apply IH. lia.
Qed.
Definition d3 (K : star_ring) : arr3 K := Arr3 0 0 0 [].
Definition d4 (K : star_ring) : arr4 K := Arr4 0 0 0 0 [].

Section Q.
  Variable K : star_ring.
  Add Ring Kring2 : (sr_ring K).
  Local Open Scope sr_scope.

  Lemma integrand_seq (tests trials : list (arr3 K)) (kv : list K) f g p q n :
    length tests = n -> length trials = n -> length kv = n ->
    integrand tests trials kv f g p q =
    bsum (seq 0 n) (fun t => bsum (seq 0 (x0 (nth t tests (d3 K)))) (fun d =>
       conj (a3 (nth t tests (d3 K)) d f p) * a3 (nth t trials (d3 K)) d g q) * nth t kv 0).
  Proof.
    intros E1 E2 E3. unfold integrand. rewrite (@bsum_nth K _ _ (d3 K, d3 K, 0)).
    rewrite !combine_length, E1, E2, E3, !Nat.min_id. apply bsum_ext. intros t _.
    rewrite combine_nth by (rewrite combine_length; lia). cbn [fst snd]. rewrite combine_nth by lia. reflexivity.
  Qed.

  Lemma forallb_true A (P : A -> bool) l : Forall (fun x => P x = true) l -> forallb P l = true.
  Proof. intros H. apply forallb_forall. apply Forall_forall. auto. Qed.
  Lemma matching_length (a b : list (arr3 K)) : matching a b -> length a = length b.
  Proof. unfold matching. induction 1; cbn; auto. Qed.
  Lemma matching_nth (a b : list (arr3 K)) t : matching a b -> x0 (nth t b (d3 K)) = x0 (nth t a (d3 K)).
  Proof. unfold matching. intros H; revert t. induction H; intros [|t]; cbn; auto. Qed.
  Lemma values_first dofs pts (vs : list (arr3 K)) : values dofs pts vs -> firstDofs vs = Ok dofs.
  Proof. intros [N V]. destruct vs as [|v r]; [congruence|]. inversion V; subst. unfold firstDofs, getAt. cbn. f_equal. tauto. Qed.
  Lemma values_ok dofs pts (vs : list (arr3 K)) : values dofs pts vs -> valuesOk dofs pts vs = true.
  Proof.
    intros [N V]. apply forallb_true. eapply Forall_impl; [|exact V]. cbn. intros v (A & B & _). rewrite A, B, !Nat.eqb_refl. reflexivity.
  Qed.
  Lemma nth_error_nth_lt A (l : list A) i d : i < length l -> nth_error l i = Some (nth i l d).
  Proof. intros H. apply nth_error_nth'. auto. Qed.
  Lemma counts_ok n m k : 0 < n -> m = n -> kernelCount n k -> countsOk n m k = true.
  Proof.
    intros A -> B. unfold countsOk. rewrite Nat.eqb_refl. replace (1 <=? n) with true by (symmetry; apply Nat.leb_le; lia).
    cbn [andb]. apply orb_true_iff. rewrite !Nat.eqb_eq. exact B.
  Qed.
  Lemma kernel_index n m t : 0 < n -> kernelCount n m -> t < n -> (if m =? 1 then 0 else t) < m.
  Proof. intros A [-> | ->] C; [cbn; lia|]. destruct (n =? 1) eqn:E; [apply Nat.eqb_eq in E|]; lia. Qed.

  Theorem tensorBlas_ok testGeom trialGeom tests trials kernels testW trialW rows cols :
    tensorData testGeom trialGeom tests trials kernels testW trialW rows cols ->
    kernelCount (length tests) (length kernels) ->
    @isMatrix K (tensorBlas testGeom trialGeom tests trials kernels testW trialW rows cols) rows cols
      (tensorEntry tests trials kernels (g_ie testGeom) (g_ie trialGeom) testW trialW).
  Proof.
    intros D Hk.
    pose proof (matching_length (td_match D)) as Lm.
    assert (Pn : 0 < length tests) by (destruct (td_test D) as [N _]; destruct tests; [congruence | cbn; lia]).
    unfold tensorBlas. cbv zeta. rewrite counts_ok by (auto; lia). cbn [assert bind].
    rewrite (values_first (td_test D)), (values_first (td_trial D)). cbn [bind].
    rewrite (values_ok (td_test D)), (values_ok (td_trial D)), !Nat.eqb_refl.
    rewrite forallb_true.
    2:{ pose proof (td_kernels D) as V. unfold grid4 in V. eapply Forall_impl; [|exact V]. cbn. intros k (A & B & C & E & _).
        rewrite A, B, C, E, !Nat.eqb_refl. reflexivity. }
    cbn [andb assert bind].
    destruct (@loop_terms K (tensorStep testGeom trialGeom tests trials kernels testW trialW rows cols)
      (fun t f g => term4 (nth t tests (d3 K)) (nth t trials (d3 K)) (nth (if length kernels =? 1 then 0 else t) kernels (d4 K)) testGeom trialGeom testW trialW f g)
      rows cols (length tests)) with (m := zeroMat K rows cols) as (m & E & [Dr Dc] & V).
    - intros t m Ht [Hr Hc].
      destruct (@tensorStep_ok K testGeom trialGeom tests trials kernels testW trialW rows cols D t (nth t tests (d3 K)) (nth t trials (d3 K))
        (nth (if length kernels =? 1 then 0 else t) kernels (d4 K)) m) as (m' & E & A & B & C); auto.
      + apply nth_error_nth_lt; auto.
      + apply nth_error_nth_lt; lia.
      + apply nth_error_nth_lt. eapply kernel_index; eauto.
      + exists m'. split; [auto|]. split; [split; auto|auto].
    - split; reflexivity.
    - exists m. rewrite E. split; [reflexivity|]. split; [auto|]. split; [auto|].
      intros f g Hf Hg. rewrite V by auto. cbn [zeroMat m_at]. unfold tensorEntry.
      assert (Z : forall x : K, 0 + x = x) by (intros; ring). rewrite Z. clear Z. unfold term4.
      rewrite bsum_swap. apply bsum_ext. intros p _. rewrite bsum_swap. apply bsum_ext. intros q _.
      rewrite (@integrand_seq tests trials _ f g p q (length tests)) by (rewrite ?map_length, ?kernelsFor_length; auto).
      rewrite <- bsum_mul_l. apply bsum_ext. intros t Ht. apply in_seq in Ht. unfold quadWeight.
      do 2 f_equal. rewrite (nth_indep _ 0 (a4 (d4 K) 0 0 p q)) by (rewrite map_length, kernelsFor_length; auto; lia).
      rewrite (map_nth (fun k => a4 k 0 0 p q)). rewrite kernelsFor_nth by lia. reflexivity.
  Qed.
End Q.
