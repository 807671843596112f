From Coq Require Import List Arith Lia Bool Ring.
From Verif Require Import Base CxRing AsmModel MatAlg ArrayModel LocalCacheProofs IntgModel IntgSpec IntgProofs IntgProofs2 IntgProofs3 IntgProofs4 IntgOpModel IntgOpSpec.
Import ListNotations.
Set Implicit Arguments.

Section P.
  Variable K : star_ring.
  Add Ring KringO : (sr_ring K).
  Local Open Scope sr_scope.

  Definition arrOf (e : elementary) (E : element K) (B : basis K) : arr3 K :=
    Arr3 (resultDimension e) (b_dofs B) (b_points B)
      (flat_map (fun p => flat_map (fun f => map (evalElementary e E B f p) (seq 0 (resultDimension e))) (seq 0 (b_dofs B)))
        (seq 0 (b_points B))).
  Lemma arrOf_length e E B : length (st3 (arrOf e E B)) = (resultDimension e * b_dofs B * b_points B)%nat.
  Proof.
    cbn [arrOf st3]. rewrite flat_length with (n := (resultDimension e * b_dofs B)%nat); [rewrite seq_length; reflexivity|].
    intros p _. rewrite flat_length with (n := resultDimension e); [rewrite seq_length; reflexivity|].
    intros. rewrite map_length, seq_length. reflexivity.
  Qed.
  Lemma arrOf_at e E B d f p : d < resultDimension e -> f < b_dofs B -> p < b_points B -> a3 (arrOf e E B) d f p = evalElementary e E B f p d.
  Proof.
    intros Hd Hf Hp. unfold a3. cbn [arrOf x0 x1 st3].
    replace (d + resultDimension e * f + resultDimension e * b_dofs B * p)%nat with ((d + f * resultDimension e) + p * (resultDimension e * b_dofs B))%nat by lia.
    rewrite flat_nth; [| |nia|auto].
    - rewrite flat_nth; [|intros; rewrite map_length, seq_length; reflexivity|auto|auto].
      rewrite map_seq_nth by auto. reflexivity.
    - intros. rewrite flat_length with (n := resultDimension e); [rewrite seq_length; reflexivity|]. intros. rewrite map_length, seq_length. reflexivity.
  Qed.
  Lemma dim_pos e : 0 < resultDimension e. Proof. destruct e; cbn; lia. Qed.
  Lemma transform_values ts (E : element K) (B : basis K) w : ts <> [] -> onElement E B w -> values (b_dofs B) (length w) (transform ts E B).
  Proof.
    intros N O. split; [destruct ts; cbn; congruence|]. apply Forall_forall. intros v Hv. apply in_map_iff in Hv. destruct Hv as (e & <- & _).
    destruct (oe_points O) as (A & P & C). change (arr3 K) with (arr3 K).
    change (Arr3 _ _ _ _) with (arrOf e E B). rewrite arrOf_length, P. cbn [arrOf x0 x1 x2]. rewrite P.
    repeat split; auto. apply dim_pos.
  Qed.
  Lemma transform_matching ts (E E2 : element K) (B B2 : basis K) : matching (transform ts E B) (transform ts E2 B2).
  Proof. unfold matching. induction ts; cbn; constructor; auto. Qed.
  Lemma grid_ok ks tp rp : grid4 tp rp (evaluateOnGrid (K := K) ks tp rp).
  Proof.
    apply Forall_forall. intros k Hk. apply in_map_iff in Hk. destruct Hk as (x & <- & _). cbn. repeat split.
    rewrite flat_length with (n := tp); [rewrite seq_length; reflexivity|]. intros. rewrite map_length, seq_length. reflexivity.
  Qed.
  Lemma pairs_ok ks n : grid3 n (evaluateAtPointPairs (K := K) ks n).
  Proof.
    apply Forall_forall. intros k Hk. apply in_map_iff in Hk. destruct Hk as (x & <- & _). cbn. repeat split. rewrite map_length, seq_length. reflexivity.
  Qed.
  Lemma grid_at (k : nat -> nat -> K) tp rp p q : p < tp -> q < rp ->
    a4 (Arr4 1 1 tp rp (flat_map (fun q => map (fun p => k p q) (seq 0 tp)) (seq 0 rp))) 0 0 p q = k p q.
  Proof.
    intros Hp Hq. unfold a4. cbn [y0 y1 y2 st4]. replace (0 + 1 * 0 + 1 * 1 * p + 1 * 1 * tp * q)%nat with (p + q * tp)%nat by lia.
    rewrite flat_nth by (auto; intros; rewrite map_length, seq_length; reflexivity). rewrite map_seq_nth by auto. reflexivity.
  Qed.
  Lemma pairs_at (k : nat -> nat -> K) n p : p < n -> a3 (Arr3 1 1 n (map (fun p => k p p) (seq 0 n))) 0 0 p = k p p.
  Proof. intros Hp. unfold a3. cbn [x0 x1 st3]. replace (0 + 1 * 0 + 1 * 1 * p)%nat with p by lia. rewrite map_seq_nth by auto. reflexivity. Qed.
  Lemma curl_eq E B f p d : d < 3 -> evalElementary SurfaceCurl E B f p d = curlAt (K := K) E B f p d.
  Proof.
    intros H. unfold curlAt, cross. rewrite !bsum_cons, !bsum_nil.
    destruct d as [|[|[|d]]]; [| | |lia]; cbn [evalElementary Nat.add]; change (1 mod 3) with 1%nat; change (2 mod 3) with 2%nat;
      change (3 mod 3) with 0%nat; change (4 mod 3) with 1%nat; rewrite ?bsum_cons, ?bsum_nil; ring.
  Qed.
  Lemma sum3 (h : nat -> K) : bsum (seq 0 3) h = bsum [0; 1; 2]%nat h. Proof. reflexivity. Qed.

  Section Two.
    Variables (testE trialE : element K) (testB trialB : basis K) (testW trialW : list K).
    Hypothesis O1 : onElement testE testB testW.
    Hypothesis O2 : onElement trialE trialB trialW.

    Definition e3 (e : elementary) (f g p q : nat) : K :=
      bsum (seq 0 (resultDimension e)) (fun d => conj (evalElementary e testE testB f p d) * evalElementary e trialE trialB g q d).
    Lemma e3_value f g p q : e3 FunctionValue f g p q = conj (b_value testB f p) * b_value trialB g q.
    Proof. unfold e3. cbn [resultDimension seq evalElementary]. rewrite bsum_cons, bsum_nil. ring. Qed.
    Lemma e3_normal f g p q : e3 ValueTimesNormal f g p q =
      bsum [0; 1; 2]%nat (fun d => g_normal (e_geom testE) d p * g_normal (e_geom trialE) d q) * (conj (b_value testB f p) * b_value trialB g q).
    Proof.
      unfold e3. cbn [resultDimension seq evalElementary]. rewrite <- bsum_mul_r. apply bsum_ext. intros d _.
      rewrite conj_mul. destruct (oe_real O1) as (_ & _ & R). rewrite R. ring.
    Qed.
    Lemma e3_curl f g p q : e3 SurfaceCurl f g p q = bsum [0; 1; 2]%nat (fun d => conj (curlAt testE testB f p d) * curlAt trialE trialB g q d).
    Proof. unfold e3. cbn [resultDimension]. rewrite (sum3 (fun d => conj (evalElementary SurfaceCurl testE testB f p d) * evalElementary SurfaceCurl trialE trialB g q d)). apply bsum_ext. intros d Hd. assert (d < 3) by (cbn in Hd; lia). rewrite !curl_eq by lia. reflexivity. Qed.
    Lemma arr_dot e f g p q : f < b_dofs testB -> g < b_dofs trialB -> p < length testW -> q < length trialW ->
      bsum (seq 0 (x0 (arrOf e testE testB))) (fun d => conj (a3 (arrOf e testE testB) d f p) * a3 (arrOf e trialE trialB) d g q) = e3 e f g p q.
    Proof.
      intros. destruct (oe_points O1) as (_ & P1 & _). destruct (oe_points O2) as (_ & P2 & _). unfold e3. cbn [arrOf x0]. apply bsum_ext. intros d Hd. apply in_seq in Hd.
      change (Arr3 _ _ (b_points testB) _) with (arrOf e testE testB). change (Arr3 _ _ (b_points trialB) _) with (arrOf e trialE trialB). rewrite !arrOf_at by lia. reflexivity.
    Qed.
    Lemma form_blas (op : operator K) (k : nat -> nat -> K) f g p q : f < b_dofs testB -> g < b_dofs trialB -> p < length testW -> q < length trialW ->
      integrand (transform (transformations op true) testE testB) (transform (transformations op true) trialE trialB)
        (map (fun h => h p q) (kernelsOf op k)) f g p q = form op testE trialE testB trialB (k p q) f g p q.
    Proof.
      intros Hf Hg Hp Hq. unfold integrand. destruct op as [| |kappa]; cbn [transformations kernelsOf transform map combine];
        rewrite !bsum_cons, !bsum_nil; cbn [fst snd]; fold (arrOf FunctionValue testE testB) (arrOf FunctionValue trialE trialB)
          (arrOf SurfaceCurl testE testB) (arrOf SurfaceCurl trialE trialB) (arrOf ValueTimesNormal testE testB) (arrOf ValueTimesNormal trialE trialB); rewrite !arr_dot by auto;
        rewrite ?e3_value, ?e3_normal, ?e3_curl; unfold form; ring.
    Qed.

    Lemma tensor_data ts ks : ts <> [] ->
      tensorData (e_geom testE) (e_geom trialE) (transform ts testE testB) (transform ts trialE trialB)
        (evaluateOnGrid ks (b_points testB) (b_points trialB)) testW trialW (b_dofs testB) (b_dofs trialB).
    Proof.
      intros N. destruct (oe_points O1) as (A1 & P1 & C1). destruct (oe_points O2) as (A2 & P2 & C2). destruct (oe_real O1) as (R1 & S1 & _). destruct (oe_real O2) as (R2 & S2 & _).
      constructor; auto.
      - apply transform_values; auto.
      - apply transform_values; auto.
      - apply transform_matching.
      - rewrite P1, P2. apply grid_ok.
      - split; [apply (oe_dofs O1)|apply (oe_dofs O2)].
    Qed.
    Lemma op_nonempty (op : operator K) blas : transformations op blas <> [].
    Proof. destruct op, blas; cbn; congruence. Qed.
    Lemma op_count (op : operator K) blas (k : nat -> nat -> K) tp rp :
      kernelCount (length (transform (transformations op blas) testE testB)) (length (evaluateOnGrid (kernelsOf op k) tp rp)).
    Proof. destruct op, blas; cbn; unfold kernelCount; auto. Qed.
    Lemma kernels_full (op : operator K) (k : nat -> nat -> K) tp rp :
      kernelsFor (length (transform (transformations op true) testE testB)) (evaluateOnGrid (kernelsOf op k) tp rp) = evaluateOnGrid (kernelsOf op k) tp rp.
    Proof. destruct op; reflexivity. Qed.
    Lemma kernels_at (op : operator K) (k : nat -> nat -> K) tp rp p q : p < tp -> q < rp ->
      map (fun a => a4 a 0 0 p q) (evaluateOnGrid (kernelsOf op k) tp rp) = map (fun h => h p q) (kernelsOf op k).
    Proof. intros. unfold evaluateOnGrid. rewrite map_map. apply map_ext. intros h. apply grid_at; auto. Qed.

    Lemma isMatrix_ext (r : res (mat K)) rows cols (a b : nat -> nat -> K) :
      (forall f g, f < rows -> g < cols -> a f g = b f g) -> isMatrix r rows cols a -> isMatrix r rows cols b.
    Proof. intros E (m & A & B & C & D). exists m. repeat split; auto. intros. rewrite D by auto. apply E; auto. Qed.

    Theorem tensor_blas ty op k : isMatrix (localTensor ty true op testE trialE testB trialB k testW trialW) (b_dofs testB) (b_dofs trialB)
      (tensorForm op testE trialE testB trialB k testW trialW).
    Proof.
      destruct (oe_points O1) as (A1 & P1 & C1). destruct (oe_points O2) as (A2 & P2 & C2).
      pose proof (tensor_data (kernelsOf op k) (@op_nonempty op true)) as D.
      assert (H : isMatrix (tensorBlas (e_geom testE) (e_geom trialE) (transform (transformations op true) testE testB) (transform (transformations op true) trialE trialB)
          (evaluateOnGrid (kernelsOf op k) (b_points testB) (b_points trialB)) testW trialW (b_dofs testB) (b_dofs trialB)) (b_dofs testB) (b_dofs trialB)
          (tensorForm op testE trialE testB trialB k testW trialW)).
      { eapply isMatrix_ext; [|apply tensorBlas_ok; [exact D|apply op_count]].
        intros f g Hf Hg. unfold tensorEntry, tensorForm. apply bsum_ext. intros p Hp. apply in_seq in Hp. apply bsum_ext. intros q Hq. apply in_seq in Hq.
        f_equal. rewrite kernels_full, kernels_at by lia. apply form_blas; auto; lia. }
      destruct ty; [exact H|exact H|]. unfold localTensor, typicalTensor.
      eapply isMatrix_ext; [|apply tensorDefault_ok with (h := fun f g p q => form op testE trialE testB trialB (k p q) f g p q); [exact D|]].
      - intros; reflexivity.
      - intros f g p q Hf Hg Hp Hq. rewrite scalar_functor.
        + f_equal. unfold cutK4. rewrite map_map. cbn [k_at]. rewrite kernels_at by lia. apply form_blas; auto.
        + apply transform_matching.
        + unfold cutK4, evaluateOnGrid, transform. rewrite !map_length. destruct op; reflexivity.
        + unfold transform. pose proof (@op_nonempty op true). destruct (transformations op true); cbn; congruence.
        + apply Forall_forall. intros s Hs. unfold cutK4, evaluateOnGrid in Hs. rewrite map_map in Hs. apply in_map_iff in Hs. destruct Hs as (x & <- & _). split; reflexivity.
    Qed.

    (** The dedicated functors of the non-BLAS path, for any two-index lookups of the kernel values. *)
    Lemma functor_ok (op : operator K) (ks : list (slice2 K)) (k : K) f g p q :
      f < b_dofs testB -> g < b_dofs trialB -> p < length testW -> q < length trialW ->
      map (fun s => (k_rows s, k_cols s, k_at s 0%nat 0%nat)) ks =
        map (fun h : nat -> nat -> K => (1%nat, 1%nat, h 0%nat 0%nat)) (kernelsOf op (fun _ _ => k)) ->
      evalFunctor (functorOf op) (fun d => g_normal (e_geom testE) d p) (fun d => g_normal (e_geom trialE) d q)
        (cut (transform (transformations op false) testE testB) f p) (cut (transform (transformations op false) trialE trialB) g q) ks =
      Ok (form op testE trialE testB trialB k f g p q).
    Proof.
      intros Hf Hg Hp Hq Hk.
      destruct op as [| |kappa].
      - destruct ks as [|s [|s' r]]; try discriminate. injection Hk; clear Hk; intros; cbn [functorOf transformations kernelsOf transform map cut evalFunctor].
        fold (arrOf FunctionValue testE testB) (arrOf FunctionValue trialE trialB).
        unfold getAt. cbn [nth_error bind s_dim s_at]. repeat match goal with H : k_rows _ = _ |- _ => rewrite H; clear H | H : k_cols _ = _ |- _ => rewrite H; clear H end. cbn [arrOf x0 resultDimension Nat.eqb andb assert bind].
        fold (arrOf FunctionValue testE testB) (arrOf FunctionValue trialE trialB).
        rewrite dot_sum. match goal with |- Ok ?a = Ok ?b => cut (a = b); [intros ->; reflexivity|] end. pose proof (@arr_dot FunctionValue f g p q Hf Hg Hp Hq) as X. change (x0 (arrOf FunctionValue testE testB)) with 1%nat in X. rewrite X, e3_value. unfold form. repeat match goal with H : k_at _ _ _ = _ |- _ => rewrite H; clear H end. ring.
      - destruct ks as [|s [|s' r]]; try discriminate. injection Hk; clear Hk; intros; cbn [functorOf transformations kernelsOf transform map cut evalFunctor].
        fold (arrOf SurfaceCurl testE testB) (arrOf SurfaceCurl trialE trialB).
        unfold getAt. cbn [nth_error bind s_dim s_at]. repeat match goal with H : k_rows _ = _ |- _ => rewrite H; clear H | H : k_cols _ = _ |- _ => rewrite H; clear H end. cbn [arrOf x0 resultDimension Nat.eqb andb assert bind].
        fold (arrOf SurfaceCurl testE testB) (arrOf SurfaceCurl trialE trialB).
        rewrite dot_sum. match goal with |- Ok ?a = Ok ?b => cut (a = b); [intros ->; reflexivity|] end. pose proof (@arr_dot SurfaceCurl f g p q Hf Hg Hp Hq) as X. change (x0 (arrOf SurfaceCurl testE testB)) with 3%nat in X. rewrite X, e3_curl. unfold form. repeat match goal with H : k_at _ _ _ = _ |- _ => rewrite H; clear H end. ring.
      - destruct ks as [|s [|s' [|s'' r]]]; try discriminate. injection Hk; clear Hk; intros; cbn [functorOf transformations kernelsOf transform map cut evalFunctor].
        fold (arrOf FunctionValue testE testB) (arrOf FunctionValue trialE trialB) (arrOf SurfaceCurl testE testB) (arrOf SurfaceCurl trialE trialB).
        unfold getAt. cbn [nth_error bind s_dim s_at]. repeat match goal with H : k_rows _ = _ |- _ => rewrite H; clear H | H : k_cols _ = _ |- _ => rewrite H; clear H end. cbn [arrOf x0 resultDimension Nat.eqb andb assert bind].
        fold (arrOf FunctionValue testE testB) (arrOf FunctionValue trialE trialB) (arrOf SurfaceCurl testE testB) (arrOf SurfaceCurl trialE trialB).
        rewrite dot_sum. match goal with |- Ok ?a = Ok ?b => cut (a = b); [intros ->; reflexivity|] end. pose proof (@arr_dot SurfaceCurl f g p q Hf Hg Hp Hq) as X. change (x0 (arrOf SurfaceCurl testE testB)) with 3%nat in X. rewrite X, e3_curl.
        destruct (oe_points O1) as (A1 & P1 & C1). destruct (oe_points O2) as (A2 & P2 & C2).
        rewrite !arrOf_at by (cbn; lia). cbn [evalElementary]. unfold form.
        replace (fold_left (fun acc d => acc + g_normal (e_geom testE) d p * g_normal (e_geom trialE) d q) (seq 0 3) 0)
          with (bsum [0; 1; 2]%nat (fun d => g_normal (e_geom testE) d p * g_normal (e_geom trialE) d q)) by (cbn [seq fold_left]; rewrite !bsum_cons, bsum_nil; ring).
        repeat match goal with H : k_at _ _ _ = _ |- _ => rewrite H; clear H end. ring.
    Qed.
    Theorem tensor_noblas ty op k : isMatrix (localTensor ty false op testE trialE testB trialB k testW trialW) (b_dofs testB) (b_dofs trialB)
      (tensorForm op testE trialE testB trialB k testW trialW).
    Proof.
      destruct (oe_points O1) as (A1 & P1 & C1). destruct (oe_points O2) as (A2 & P2 & C2).
      pose proof (tensor_data (kernelsOf op k) (@op_nonempty op false)) as D. unfold localTensor.
      eapply isMatrix_ext; [|apply tensorDefault_ok with (h := fun f g p q => form op testE trialE testB trialB (k p q) f g p q); [exact D|]].
      - intros; reflexivity.
      - intros f g p q Hf Hg Hp Hq. apply functor_ok; auto. unfold cutK4, evaluateOnGrid. rewrite !map_map. cbn [k_rows k_cols k_at y0 y1].
        destruct op; cbn [kernelsOf map]; rewrite !grid_at by lia; reflexivity.
    Qed.
  End Two.

  Section Pairs.
    Variables (testE trialE : element K) (testB trialB : basis K) (w : list K).
    Hypothesis O1 : onElement testE testB w.
    Hypothesis O2 : onElement trialE trialB w.
    Lemma pair_data ts : ts <> [] ->
      pairData (e_geom testE) (e_geom trialE) (transform ts testE testB) (transform ts trialE trialB) w (b_dofs testB) (b_dofs trialB).
    Proof.
      intros N. destruct (oe_points O1) as (A1 & P1 & C1). destruct (oe_points O2) as (A2 & P2 & C2). destruct (oe_real O1) as (R1 & S1 & _). destruct (oe_real O2) as (R2 & S2 & _).
      constructor; auto.
      - apply transform_values; auto.
      - apply transform_values; auto.
      - apply transform_matching.
      - split; [apply (oe_dofs O1)|apply (oe_dofs O2)].
    Qed.
    Lemma kernels_pair_at (op : operator K) (k : nat -> nat -> K) n p : p < n ->
      map (fun a => a3 a 0 0 p) (evaluateAtPointPairs (kernelsOf op k) n) = map (fun h => h p p) (kernelsOf op k).
    Proof. intros. unfold evaluateAtPointPairs. rewrite map_map. apply map_ext. intros h. apply pairs_at; auto. Qed.
    Lemma pair_entry_form (op : operator K) k f g : f < b_dofs testB -> g < b_dofs trialB ->
      pairEntry (transform (transformations op true) testE testB) (transform (transformations op true) trialE trialB)
        (evaluateAtPointPairs (kernelsOf op k) (length w)) (g_ie (e_geom testE)) (g_ie (e_geom trialE)) w f g =
      pairForm op testE trialE testB trialB k w f g.
    Proof.
      intros Hf Hg. unfold pairEntry, pairForm. apply bsum_ext. intros p Hp. apply in_seq in Hp. f_equal.
      replace (kernelsFor _ _) with (evaluateAtPointPairs (kernelsOf op k) (length w)) by (destruct op; reflexivity).
      rewrite kernels_pair_at by lia. apply form_blas with (testW := w) (trialW := w); auto; lia.
    Qed.
    Theorem pairs_both blas op k : isMatrix (localPairs blas op testE trialE testB trialB k w) (b_dofs testB) (b_dofs trialB)
      (pairForm op testE trialE testB trialB k w).
    Proof.
      destruct (oe_points O1) as (A1 & P1 & C1). destruct (oe_points O2) as (A2 & P2 & C2).
      pose proof (pair_data (@op_nonempty op blas)) as D. unfold localPairs. destruct blas.
      - eapply isMatrix_ext; [|apply nontensorBlas_ok; [exact D|apply pairs_ok|]].
        + intros f g Hf Hg. apply pair_entry_form; auto.
        + destruct op; cbn; unfold kernelCount; auto.
      - eapply isMatrix_ext; [|apply nontensorDefault_ok with (h := fun f g p => form op testE trialE testB trialB (k p p) f g p p); [exact D|apply pairs_ok|]].
        + intros; reflexivity.
        + intros f g p Hf Hg Hp. apply functor_ok with (testW := w) (trialW := w); auto. unfold cutK3, evaluateAtPointPairs. rewrite !map_map. cbn [k_rows k_cols k_at x0 x1].
          destruct op as [| |kappa]; cbn [kernelsOf map]; rewrite (pairs_at k) by lia; [reflexivity|reflexivity|rewrite (pairs_at (fun p q => k p q * kappa * kappa)) by lia; reflexivity].
    Qed.
  End Pairs.
End P.
