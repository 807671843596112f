From Coq Require Import List Arith Lia Bool Ring.
From Verif Require Import Base CxRing AsmModel MatAlg ArrayModel LocalCacheProofs IntgModel IntgSpec IntgProofs.
Import ListNotations.
Set Implicit Arguments.

(** The generic integral: loops over functions and points around an integrand functor. *)
Section D.
  Variable K : star_ring.
  Add Ring KringD : (sr_ring K).
  Local Open Scope sr_scope.

  Lemma fill_ok rows cols (entry : nat -> nat -> res K) h :
    (forall f g, f < rows -> g < cols -> entry f g = Ok (h f g)) -> isMatrix (fill K rows cols entry) rows cols h.
  Proof.
    intros H. unfold fill.
    rewrite (@tabulate_ok _ _ (fun g => map (fun f => h f g) (seq 0 rows))).
    - cbn [bind]. eexists. split; [reflexivity|]. cbn [m_rows m_cols m_at]. split; [auto|]. split; [auto|].
      intros f g Hf Hg. rewrite map_seq_nth by auto. rewrite map_seq_nth by auto. reflexivity.
    - intros g Hg. apply in_seq in Hg. apply tabulate_ok. intros f Hf. apply in_seq in Hf. apply H; lia.
  Qed.
  Lemma dot_sum n (a b : nat -> K) : dot n a b = bsum (seq 0 n) (fun d => conj (a d) * b d).
  Proof.
    unfold dot. assert (G : forall l (s : K), fold_left (fun acc d => acc + conj (a d) * b d) l s = s + bsum l (fun d => conj (a d) * b d)).
    { induction l as [|x l IH]; intros s; cbn [fold_left]; [rewrite bsum_nil; ring|]. rewrite IH, bsum_cons. ring. }
    rewrite G. ring.
  Qed.

  Lemma tensorDefault_ok F testGeom trialGeom tests trials (kernels : list (arr4 K)) testW trialW rows cols (h : nat -> nat -> nat -> nat -> K) :
    tensorData testGeom trialGeom tests trials kernels testW trialW rows cols ->
    (forall f g p q, f < rows -> g < cols -> p < length testW -> q < length trialW ->
      evalFunctor F (fun d => g_normal testGeom d p) (fun d => g_normal trialGeom d q) (cut tests f p) (cut trials g q) (cutK4 kernels p q) = Ok (h f g p q)) ->
    isMatrix (tensorDefault F testGeom trialGeom tests trials kernels testW trialW rows cols) rows cols
      (fun f g => bsum (seq 0 (length testW)) (fun p => bsum (seq 0 (length trialW)) (fun q =>
        (nth p (g_ie testGeom) 0 * nth p testW 0) * (nth q (g_ie trialGeom) 0 * nth q trialW 0) * h f g p q))).
  Proof.
    intros D H. unfold tensorDefault. cbv zeta.
    rewrite (values_first (td_test D)), (values_first (td_trial D)). cbn [bind].
    destruct (td_ie D) as [E1 E2]. rewrite E1, E2, !Nat.eqb_refl, !Nat.leb_refl.
    rewrite (@forallb_true _ (fun k : arr4 K => (y2 k =? length testW) && (y3 k =? length trialW)) kernels).
    2:{ pose proof (td_kernels D) as V. unfold grid4 in V. eapply Forall_impl; [|exact V]. cbn. intros k (A & B & C & E & _). rewrite C, E, !Nat.eqb_refl. reflexivity. }
    destruct (td_test D) as [_ V1]. destruct (td_trial D) as [_ V2].
    rewrite (@forallb_true _ (fun v : arr3 K => x2 v =? length testW) tests).
    2:{ eapply Forall_impl; [|exact V1]. cbn. intros k (A & B & _). rewrite B, Nat.eqb_refl. reflexivity. }
    rewrite (@forallb_true _ (fun v : arr3 K => x2 v =? length trialW) trials).
    2:{ eapply Forall_impl; [|exact V2]. cbn. intros k (A & B & _). rewrite B, Nat.eqb_refl. reflexivity. }
    cbn [andb assert bind]. apply fill_ok. intros f g Hf Hg.
    rewrite (@loop_sum K _ (fun q => bsum (seq 0 (length testW)) (fun p => h f g p q * (nth p (g_ie testGeom) 0 * nth p testW 0)) * (nth q (g_ie trialGeom) 0 * nth q trialW 0))).
    - f_equal. assert (Z : forall x : K, 0 + x = x) by (intros; ring). rewrite Z.
      etransitivity; [|apply bsum_swap]. apply bsum_ext. intros q _. rewrite <- bsum_mul_r. apply bsum_ext. intros p _. ring.
    - intros q s Hq. apply in_seq in Hq.
      rewrite (@loop_sum K _ (fun p => h f g p q * (nth p (g_ie testGeom) 0 * nth p testW 0))).
      + cbn [bind]. do 2 f_equal. ring.
      + intros p s' Hp. apply in_seq in Hp. rewrite H by (auto; lia). reflexivity.
  Qed.
  Lemma nontensorDefault_ok F testGeom trialGeom tests trials (kernels : list (arr3 K)) w rows cols (h : nat -> nat -> nat -> K) :
    pairData testGeom trialGeom tests trials w rows cols -> grid3 (length w) kernels ->
    (forall f g p, f < rows -> g < cols -> p < length w ->
      evalFunctor F (fun d => g_normal testGeom d p) (fun d => g_normal trialGeom d p) (cut tests f p) (cut trials g p) (cutK3 kernels p) = Ok (h f g p)) ->
    isMatrix (nontensorDefault F testGeom trialGeom tests trials kernels w) rows cols
      (fun f g => bsum (seq 0 (length w)) (fun p => (nth p (g_ie testGeom) 0 * nth p (g_ie trialGeom) 0 * nth p w 0) * h f g p)).
  Proof.
    intros D Gk H. unfold nontensorDefault. cbv zeta.
    rewrite (values_first (pd_test D)), (values_first (pd_trial D)). cbn [bind].
    destruct (pd_ie D) as [E1 E2]. rewrite E1, E2, !Nat.leb_refl.
    rewrite (@forallb_true _ (fun k : arr3 K => x2 k =? length w) kernels).
    2:{ unfold grid3 in Gk. eapply Forall_impl; [|exact Gk]. cbn. intros k (A & B & C & _). rewrite C, !Nat.eqb_refl. reflexivity. }
    destruct (pd_test D) as [_ V1]. destruct (pd_trial D) as [_ V2].
    rewrite (@forallb_true _ (fun v : arr3 K => x2 v =? length w) tests).
    2:{ eapply Forall_impl; [|exact V1]. cbn. intros k (A & B & _). rewrite B, Nat.eqb_refl. reflexivity. }
    rewrite (@forallb_true _ (fun v : arr3 K => x2 v =? length w) trials).
    2:{ eapply Forall_impl; [|exact V2]. cbn. intros k (A & B & _). rewrite B, Nat.eqb_refl. reflexivity. }
    cbn [andb assert bind]. apply fill_ok. intros f g Hf Hg.
    rewrite (@loop_sum K _ (fun p => h f g p * (nth p (g_ie testGeom) 0 * nth p (g_ie trialGeom) 0 * nth p w 0))).
    - f_equal. assert (Z : forall x : K, 0 + x = x) by (intros; ring). rewrite Z. apply bsum_ext. intros p _. ring.
    - intros p s Hp. apply in_seq in Hp. rewrite H by (auto; lia). reflexivity.
  Qed.

  (** The general scalar-kernel functor, one kernel per transformation. *)
  Lemma scalar_functor testNormal trialNormal (tests trials : list (arr3 K)) (ks : list (slice2 K)) f g p q :
    matching tests trials -> length ks = length tests -> tests <> [] -> Forall (fun k => k_rows k = 1%nat /\ k_cols k = 1%nat) ks ->
    evalFunctor (@Scalar) testNormal trialNormal (cut tests f p) (cut trials g q) ks =
      Ok (integrand tests trials (map (fun k => k_at k 0 0) ks) f g p q).
  Proof.
    intros M L N S1. pose proof (matching_length M) as Lm.
    assert (P : 0 < length tests) by (destruct tests; [congruence|cbn; lia]).
    set (dk := Slice2 K 1 1 (fun _ _ => 0)).
    unfold evalFunctor, cut. rewrite !map_length. unfold getAt.
    rewrite (@nth_error_nth_lt _ ks 0 dk) by lia. cbn [bind].
    assert (S0 : k_rows (nth 0 ks dk) = 1%nat /\ k_cols (nth 0 ks dk) = 1%nat).
    { rewrite Forall_forall in S1. apply S1. apply nth_In. lia. }
    destruct S0 as [S2 S3]. rewrite S2, S3. cbn [Nat.eqb andb assert bind].
    rewrite <- Lm, L, Nat.eqb_refl, orb_true_r. replace (1 <=? length tests) with true by (symmetry; apply Nat.leb_le; lia). cbn [andb assert bind].
    rewrite (@loop_sum K _ (fun t => bsum (seq 0 (x0 (nth t tests (d3 K)))) (fun d => conj (a3 (nth t tests (d3 K)) d f p) * a3 (nth t trials (d3 K)) d g q) * k_at (nth t ks dk) 0 0)).
    - f_equal. assert (Z : forall x : K, 0 + x = x) by (intros; ring). rewrite Z.
      rewrite (@integrand_seq K tests trials _ f g p q (length tests)) by (rewrite ?map_length; auto).
      apply bsum_ext. intros t Ht. f_equal. rewrite (nth_indep _ 0 (k_at dk 0 0)) by (rewrite map_length; apply in_seq in Ht; lia).
      rewrite (map_nth (fun k : slice2 K => k_at k 0 0)). reflexivity.
    - intros t s Ht. apply in_seq in Ht. rewrite !nth_error_map.
      rewrite (@nth_error_nth_lt _ tests t (d3 K)), (@nth_error_nth_lt _ trials t (d3 K)) by lia. cbn [option_map bind s_dim s_at].
      rewrite (matching_nth t M), Nat.eqb_refl. cbn [assert bind].
      rewrite (@nth_error_nth_lt _ ks _ dk) by (destruct (length tests =? 1)%nat eqn:C; lia). cbn [bind].
      rewrite dot_sum. do 4 f_equal. f_equal. destruct (length tests =? 1)%nat eqn:C; [apply Nat.eqb_eq in C; lia|reflexivity].
  Qed.
  (** One kernel for several transformations: the functor reads past the end of the kernels. *)
  Lemma scalar_functor_undefined testNormal trialNormal (tests trials : list (arr3 K)) (k : slice2 K) f g p q :
    1 < length tests -> evalFunctor (@Scalar) testNormal trialNormal (cut tests f p) (cut trials g q) [k] = Undefined.
  Proof.
    intros L. unfold evalFunctor. cbn [getAt nth_error bind]. assert (Lc : length (cut tests f p) = length tests) by (unfold cut; apply map_length). rewrite Lc.
    destruct (assert _) as [[]| |] eqn:E1; cbn [bind]; auto; [|unfold assert in E1; destruct (_ && _) in E1; discriminate].
    destruct (assert ((1 <=? _) && _ && _)) as [[]| |] eqn:E2; cbn [bind]; auto; [|unfold assert in E2; destruct (_ && _) in E2; discriminate].
    replace (seq 0 (length tests)) with (seq 0 2 ++ seq 2 (length tests - 2)) by (rewrite <- seq_app; f_equal; lia).
    assert (U : forall s, loop (seq 0 2) (fun t result => bind (getAt (cut tests f p) t) (fun a => bind (getAt (cut trials g q) t) (fun b =>
       bind (assert (s_dim b =? s_dim a)) (fun _ => bind (getAt [k] (if length tests =? 1 then 0%nat else t)) (fun k0 =>
       Ok (result + dot (s_dim a) (s_at a) (s_at b) * k_at k0 0 0)))))) s = Undefined).
    { intros s. replace (length tests =? 1)%nat with false by (symmetry; apply Nat.eqb_neq; lia). cbn [seq loop].
      unfold getAt, assert. cbn [nth_error].
      repeat match goal with |- context [match ?x with _ => _ end] => destruct x; cbn [bind]; auto end. }
    rewrite loop_app, U. reflexivity.
  Qed.
End D.
