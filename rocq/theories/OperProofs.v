From Verif Require Import Base AsmModel HMatApplyModel OperModel OperSpec.
Set Implicit Arguments.

Lemma zipWith_length A B C (f : A -> B -> C) l : forall m, length l = length m -> length (zipWith f l m) = length l.
Proof. induction l; destruct m; cbn; try discriminate; auto. Qed.
Lemma zipWith_nth A B C (f : A -> B -> C) l : forall m i a b, nth_error l i = Some a -> nth_error m i = Some b ->
  nth_error (zipWith f l m) i = Some (f a b).
Proof. induction l as [|x l IH]; destruct m; destruct i; cbn; intros; try discriminate; [congruence|eauto]. Qed.
Lemma nth_error_map_ A B (f : A -> B) l i : nth_error (map f l) i = option_map f (nth_error l i).
Proof. revert i. induction l; destruct i; cbn; auto. Qed.
Lemma nth_error_map_seq A (f : nat -> A) n i : i < n -> nth_error (map f (seq 0 n)) i = Some (f i).
Proof.
  intro H. rewrite nth_error_map_. rewrite (nth_error_nth' (seq 0 n) 0) by (rewrite seq_length; lia).
  rewrite seq_nth by lia. reflexivity.
Qed.

Section P.
  Variable K : star_ring.
  Add Ring KrP : (sr_ring K).
  Variable isz : K -> bool.
  Hypothesis iszP : forall x, isz x = true <-> x = zero.
  Implicit Type A : AsmModel.mat K.

  Lemma mv_ok A x : length x = m_cols A -> exists p, mv A x = Some p /\ length p = m_rows A /\
    forall i, i < m_rows A -> nth_error p i = Some (bsum (seq 0 (m_cols A)) (fun k => mul (m_at A i k) (nth k x zero))).
  Proof.
    intro L. unfold mv. rewrite L, Nat.eqb_refl. eexists. split; [reflexivity|]. split; [now rewrite map_length, seq_length|].
    intros i H. apply nth_error_map_seq. exact H.
  Qed.
  Lemma vadd_ok (p : list K) (y : list (num K)) : length p = length y -> exists r, vadd p y = Some r /\ length r = length p /\
    forall i u v, nth_error p i = Some u -> nth_error y i = Some v -> nth_error r i = Some (nadd (Some u) v).
  Proof.
    intro L. unfold vadd. rewrite L, Nat.eqb_refl. eexists. split; [reflexivity|]. split; [rewrite <- L; now apply zipWith_length|].
    intros. erewrite zipWith_nth; eauto.
  Qed.
  Lemma nth_some (Y : Type) (l : list Y) i n : length l = n -> i < n -> exists v, nth_error l i = Some v.
  Proof. intros L H. destruct (nth_error l i) eqn:E; [eauto|]. apply nth_error_None in E. lia. Qed.

  Lemma dense_contract A : blasContract (denseImpl isz A) A.
  Proof.
    intros t x y alpha beta Lx Ly. unfold denseImpl.
    set (A' := match t with NO_TRANSPOSE => A | CONJUGATE => mC A | TRANSPOSE => mT A | CONJUGATE_TRANSPOSE => mT (mC A) end).
    assert (R : m_rows A' = opRows t A) by (destruct t; reflexivity).
    assert (C : m_cols A' = opCols t A) by (destruct t; reflexivity).
    assert (E : forall i j, m_at A' i j = opAt t A i j) by (destruct t; reflexivity).
    destruct (mv_ok (mscal alpha A') x) as (p & -> & Lp & P); [cbn; congruence|]. cbn [m_rows m_cols m_at mscal] in Lp, P.
    set (y1 := if isz beta then map (fun _ : num K => Some zero) y else map (fun v => nmul v (Some beta)) y).
    assert (L1 : length y1 = length y) by (unfold y1; destruct (isz beta); apply map_length).
    destruct (vadd_ok p y1) as (r & -> & Lr & Q); [congruence|]. exists r. split; [reflexivity|]. split; [congruence|].
    intros i Hi s. specialize (P i ltac:(congruence)).
    destruct (@nth_some _ y i _ Ly Hi) as (v & Ev).
    assert (Sm : bsum (seq 0 (m_cols A')) (fun k => mul (mul alpha (m_at A' i k)) (nth k x zero)) = mul alpha s).
    { unfold s. rewrite <- bsum_mul_l, C. apply bsum_ext. intros. rewrite E. ring. }
    rewrite Sm in P. unfold y1 in Q. split.
    - intros ->. destruct (isz zero) eqn:Z; [|exfalso; assert (isz zero = true) by (now apply iszP); congruence].
      rewrite (Q i _ (Some zero) P); [cbn; f_equal; f_equal; ring|]. rewrite nth_error_map_, Ev. reflexivity.
    - intros w Ew. assert (v = Some w) by congruence. subst v. destruct (isz beta) eqn:Z.
      + apply iszP in Z. subst beta. rewrite (Q i _ (Some zero) P); [cbn; f_equal; f_equal; ring|]. rewrite nth_error_map_, Ev. reflexivity.
      + rewrite (Q i _ (Some (mul w beta)) P); [cbn; f_equal; f_equal; ring|]. rewrite nth_error_map_, Ev. reflexivity.
  Qed.

  (** the real sparse apply, for a matrix B = A or its transpose *)
  Lemma sparseReal_ok A t x y alpha beta : length x = opCols t A -> length y = opRows t A ->
    exists r, sparseReal isz A t x y alpha beta = Some r /\ length r = length y /\
    forall i v, i < opRows t A -> nth_error y i = Some v ->
      let s := bsum (seq 0 (opCols t A)) (fun k => mul (if isT_ t then m_at A k i else m_at A i k) (nth k x zero)) in
      (beta = zero -> nth_error r i = Some (Some (mul alpha s))) /\
      (beta <> zero -> nth_error r i = Some (nadd (Some (mul alpha s)) (nmul (Some beta) v))).
  Proof.
    intros Lx Ly. unfold sparseReal.
    set (B := if isT_ t then mT A else A).
    set (y1 := if isz beta then map (fun _ : num K => Some zero) y else y).
    assert (L1 : length y1 = length y) by (unfold y1; destruct (isz beta); [apply map_length|reflexivity]).
    assert (R : m_rows B = opRows t A) by (destruct t; reflexivity).
    assert (C : m_cols B = opCols t A) by (destruct t; reflexivity).
    assert (E : forall i j, m_at B i j = if isT_ t then m_at A j i else m_at A i j) by (destruct t; reflexivity).
    assert (G : exists r, match mv B x with
       | Some p => vadd (map (mul alpha) p) (map (fun v => nmul (Some beta) v) y1) | None => None end = Some r /\ length r = length y /\
      forall i v, i < opRows t A -> nth_error y i = Some v ->
      let s := bsum (seq 0 (opCols t A)) (fun k => mul (if isT_ t then m_at A k i else m_at A i k) (nth k x zero)) in
      (beta = zero -> nth_error r i = Some (Some (mul alpha s))) /\
      (beta <> zero -> nth_error r i = Some (nadd (Some (mul alpha s)) (nmul (Some beta) v)))).
    { destruct (mv_ok B x) as (p & -> & Lp & P); [congruence|].
      destruct (vadd_ok (map (mul alpha) p) (map (fun v => nmul (Some beta) v) y1)) as (r & -> & Lr & Q); [rewrite !map_length; congruence|].
      exists r. split; [reflexivity|]. rewrite map_length in Lr. split; [congruence|].
      intros i v Hi Ev s. specialize (P i ltac:(congruence)).
      assert (Sm : bsum (seq 0 (m_cols B)) (fun k => mul (m_at B i k) (nth k x zero)) = s).
      { unfold s. rewrite C. apply bsum_ext. intros. rewrite E. reflexivity. }
      rewrite Sm in P. split.
      - intro Z. pose proof (proj2 (iszP beta) Z) as Z'. unfold y1 in Q. rewrite Z' in Q. subst beta.
        rewrite (Q i (mul alpha s) (Some zero)).
        + cbn. f_equal. f_equal. ring.
        + rewrite nth_error_map_, P. reflexivity.
        + rewrite nth_error_map_, nth_error_map_, Ev. cbn. f_equal. f_equal. ring.
      - intro Z. unfold y1 in Q. destruct (isz beta) eqn:Z'; [exfalso; apply Z; now apply iszP|].
        apply Q; [rewrite nth_error_map_, P; reflexivity|]. rewrite nth_error_map_, Ev. reflexivity. }
    destruct t; exact G.
  Qed.

  Lemma realTrans_ok mt : mt <> CONJUGATE -> isTransposed mt = isT_ mt.
  Proof. destruct mt; try reflexivity. congruence. Qed.
  Lemma opRows_realTrans (A : AsmModel.mat K) mt t : mt <> CONJUGATE -> opRows (realTrans mt t) A = opRows t (opM mt A).
  Proof. intro N. unfold realTrans. rewrite realTrans_ok by auto. destruct mt, t; try reflexivity; congruence. Qed.
  Lemma opCols_realTrans (A : AsmModel.mat K) mt t : mt <> CONJUGATE -> opCols (realTrans mt t) A = opCols t (opM mt A).
  Proof. intro N. unfold realTrans. rewrite realTrans_ok by auto. destruct mt, t; try reflexivity; congruence. Qed.

  Lemma sparse_contract A mt : (forall x : K, conj x = x) -> mt <> CONJUGATE -> blasContract (sparseImpl isz A mt) (opM mt A).
  Proof.
    intros CT N t x y alpha beta Lx Ly. unfold sparseImpl.
    rewrite <- opRows_realTrans in Ly by auto. rewrite <- opCols_realTrans in Lx by auto.
    destruct (@sparseReal_ok A (realTrans mt t) x y alpha beta Lx Ly) as (r & -> & Lr & Q).
    exists r. split; [reflexivity|]. rewrite Ly in Lr. split; [rewrite <- opRows_realTrans by auto; exact Lr|].
    rewrite <- opRows_realTrans, <- opCols_realTrans by auto. intros i Hi s.
    destruct (@nth_some _ y i _ Ly Hi) as (v & Ev). destruct (Q i v Hi Ev) as (Q1 & Q2).
    assert (Sm : s = bsum (seq 0 (opCols (realTrans mt t) A)) (fun k => mul (if isT_ (realTrans mt t) then m_at A k i else m_at A i k) (nth k x zero))).
    { unfold s. apply bsum_ext. intros k _. f_equal. unfold realTrans. rewrite realTrans_ok by auto. destruct mt, t; cbn; rewrite ?CT; reflexivity || congruence. }
    rewrite <- Sm in Q1, Q2. split; [exact Q1|]. intros w Ew. assert (v = Some w) by congruence. subst v.
    destruct (isz beta) eqn:Z.
    - apply iszP in Z. rewrite Q1 by auto. subst beta. f_equal. f_equal. ring.
    - rewrite Q2 by (intro; assert (isz beta = true) by (now apply iszP); congruence). reflexivity.
  Qed.

  Lemma sparse_sizes A mt : mt <> CONJUGATE ->
    sparseRows A mt = opRows mt A /\ sparseCols A mt = opCols mt A.
  Proof. intro N. unfold sparseRows, sparseCols. rewrite realTrans_ok by auto. destruct mt; auto; congruence. Qed.
  Lemma sparse_asMatrix A mt : (forall x : K, conj x = x) -> mt <> CONJUGATE -> sameMat (sparseAsMatrix A mt) (opM mt A).
  Proof.
    intros CT N. unfold sparseAsMatrix. rewrite realTrans_ok by auto.
    destruct mt; try congruence; repeat split; intros; cbn; rewrite ?CT; reflexivity.
  Qed.
End P.

(** ---- base class ---- *)
Section Base.
  Variable K : star_ring.
  Add Ring KrB : (sr_ring K).
  Variables (impl : builtIn K) (A : AsmModel.mat K).
  Hypothesis H : blasContract impl A.

  Definition unitv (n i : nat) : list K := map (fun k => if k =? i then one else zero) (seq 0 n).
  Lemma nth_unitv n i k : k < n -> nth k (unitv n i) zero = if k =? i then one else zero.
  Proof.
    intro L. unfold unitv. rewrite (nth_error_nth _ _ _ (nth_error_map_seq (fun k => if k =? i then one else zero) L)). reflexivity.
  Qed.
  Lemma setv_length (v : list K) i a : length (setv v i a) = length v.
  Proof. unfold setv. now rewrite map_length, seq_length. Qed.
  Lemma nth_setv (v : list K) i a k : k < length v -> nth k (setv v i a) zero = if k =? i then a else nth k v zero.
  Proof. intro L. unfold setv. rewrite (nth_error_nth _ _ _ (nth_error_map_seq (fun k => if k =? i then a else nth k v zero) L)). reflexivity. Qed.
  Lemma list_eq_nth (u v : list K) : length u = length v -> (forall k, k < length u -> nth k u zero = nth k v zero) -> u = v.
  Proof. intros L E. apply nth_ext with (d := zero) (d' := zero); auto. Qed.

  Lemma asMatrixLoop_ok junk : (forall i, length (junk i) = m_rows A) -> forall n i0 unit,
    i0 + n <= m_cols A -> length unit = m_cols A ->
    (forall k, k < m_cols A -> nth k unit zero = if (0 <? i0) && (k =? i0 - 1) then one else zero) ->
    exists M, asMatrixLoop impl junk (seq i0 n) unit = Some M /\ length M = n /\
      forall j, j < n -> exists col, nth_error M j = Some col /\ length col = m_rows A /\
        forall i, i < m_rows A -> nth_error col i = Some (Some (m_at A i (i0 + j))).
  Proof.
    intro J. induction n as [|n IH]; intros i0 unit L Lu U; cbn [seq asMatrixLoop].
    - exists []. split; [reflexivity|]. split; [reflexivity|]. intros; lia.
    - set (u1 := if 0 <? i0 then setv unit (i0 - 1) zero else unit). set (u2 := setv u1 i0 one).
      assert (L1 : length u1 = m_cols A) by (unfold u1; destruct (0 <? i0); rewrite ?setv_length; exact Lu).
      assert (L2 : length u2 = m_cols A) by (unfold u2; rewrite setv_length; exact L1).
      assert (E : forall k, k < m_cols A -> nth k u2 zero = if k =? i0 then one else zero).
      { intros k Hk. unfold u2. rewrite nth_setv by lia. destruct (k =? i0) eqn:Q; [reflexivity|]. unfold u1.
        destruct (0 <? i0) eqn:P.
        - rewrite nth_setv by lia. rewrite U by lia. cbn. idtac. destruct (k =? i0 - 1); reflexivity.
        - rewrite U by lia. reflexivity. }
      destruct (@H NO_TRANSPOSE u2 (junk i0) one zero) as (col & -> & Lc & C); [exact L2|apply J|].
      destruct (IH (S i0) u2) as (M & -> & LM & R); [lia|exact L2|..].
      { intros k Hk. rewrite E by lia. cbn. rewrite Nat.sub_0_r. reflexivity. }
      exists (col :: M). split; [reflexivity|]. split; [cbn; congruence|]. intros [|j] Hj.
      + exists col. split; [reflexivity|]. split; [exact Lc|]. intros i Hi. destruct (C i Hi) as (C1 & _).
        rewrite C1 by reflexivity. rewrite Nat.add_0_r. f_equal. f_equal.
        rewrite (@bsum_single K nat Nat.eq_dec _ i0).
        * rewrite E by lia. rewrite Nat.eqb_refl. cbn. ring.
        * apply seq_NoDup.
        * apply in_seq. cbn. lia.
        * intros k Ik Nk. apply in_seq in Ik. cbn in Ik. rewrite E by lia. apply Nat.eqb_neq in Nk. rewrite Nk. ring.
      + destruct (R j) as (col' & R1 & R2 & R3); [lia|]. exists col'. split; [exact R1|]. split; [exact R2|].
        intros i Hi. rewrite R3 by auto. do 3 f_equal. lia.
  Qed.
  Lemma asMatrix_ok junk : (forall i, length (junk i) = m_rows A) ->
    exists M, asMatrix impl (m_cols A) junk = Some M /\ length M = m_cols A /\
      forall j, j < m_cols A -> exists col, nth_error M j = Some col /\ length col = m_rows A /\
        forall i, i < m_rows A -> nth_error col i = Some (Some (m_at A i j)).
  Proof.
    intro J. apply (asMatrixLoop_ok _ J); [lia|apply repeat_length|]. intros k Hk. cbn.
    clear -Hk. revert k Hk. induction (m_cols A) as [|n IH]; intros [|k] Hk; cbn; auto; try lia. apply IH. lia.
  Qed.

  Lemma applyCols_ok t alpha beta : forall xs ys, length xs = length ys ->
    (forall x, In x xs -> length x = opCols t A) -> (forall y, In y ys -> length y = opRows t A) ->
    exists rs, applyCols impl t xs ys alpha beta = Some rs /\ length rs = length xs /\
      forall j x y, nth_error xs j = Some x -> nth_error ys j = Some y -> exists r, nth_error rs j = Some r /\ axpby t A x y alpha beta r.
  Proof.
    induction xs as [|x xs IH]; destruct ys as [|y ys]; intros L X Y; try discriminate.
    - exists []. repeat split. intros [|j]; discriminate.
    - cbn [applyCols]. destruct (@H t x y alpha beta) as (r & -> & P); [apply X; now left|apply Y; now left|].
      destruct (IH ys) as (rs & -> & Lr & Q); [cbn in L; lia|intros; apply X; now right|intros; apply Y; now right|].
      exists (r :: rs). split; [reflexivity|]. split; [cbn; congruence|]. intros [|j] u v Eu Ev; cbn in *.
      + injection Eu as <-. injection Ev as <-. eauto.
      + eauto.
  Qed.
End Base.

(** ---- complex ---- *)
Section Cplx.
  Variable K : star_ring.
  Add Ring KrX : (sr_ring K).
  Variable isz : K -> bool.
  Hypothesis iszP : forall x, isz x = true <-> x = zero.
  Hypothesis nontrivial : (one : K) <> zero.
  Implicit Type A : AsmModel.mat K.

  Lemma cxzP z : cxz isz z = true <-> z = (zero : Cx K).
  Proof.
    unfold cxz. rewrite andb_true_iff, !iszP. destruct z as [a b]. cbn. split; [intros (-> & ->); reflexivity|]. intro E. injection E; auto.
  Qed.
  Lemma fst_bsumC X (l : list X) (f : X -> Cx K) : fst (bsum l f) = bsum (K := K) l (fun a => fst (f a)).
  Proof. induction l as [|a l IH]; [reflexivity|]. rewrite !bsum_cons. cbn [fst]. change (fst (add (f a) (bsum l f))) with (add (fst (f a)) (fst (bsum l f))). rewrite IH. reflexivity. Qed.
  Lemma snd_bsumC X (l : list X) (f : X -> Cx K) : snd (bsum l f) = bsum (K := K) l (fun a => snd (f a)).
  Proof. induction l as [|a l IH]; [reflexivity|]. rewrite !bsum_cons. change (snd (add (f a) (bsum l f))) with (add (snd (f a)) (snd (bsum l f))). rewrite IH. reflexivity. Qed.
  Lemma nth_map_fst (x : list (Cx K)) k : nth k (map (fun z : Cx K => fst z) x) zero = fst (nth k x zero).
  Proof. exact (map_nth (fun z : Cx K => fst z) x zero k). Qed.
  Lemma nth_map_snd (x : list (Cx K)) k : nth k (map (fun z : Cx K => snd z) x) zero = snd (nth k x zero).
  Proof. exact (map_nth (fun z : Cx K => snd z) x zero k). Qed.

  (** a real apply with beta = 1 *)
  Lemma acc_ok A t x y alpha : length x = opCols t A -> length y = opRows t A ->
    exists r, sparseReal isz A t x y alpha one = Some r /\ length r = opRows t A /\
    forall i v, i < opRows t A -> nth_error y i = Some v ->
      nth_error r i = Some (nadd (Some (mul alpha (bsum (seq 0 (opCols t A)) (fun k => mul (if isT_ t then m_at A k i else m_at A i k) (nth k x zero))))) v).
  Proof.
    intros Lx Ly. destruct (@sparseReal_ok K isz iszP A t x y alpha one Lx Ly) as (r & E & Lr & Q).
    exists r. split; [exact E|]. split; [congruence|]. intros i v Hi Ev. destruct (Q i v Hi Ev) as (_ & Q2). rewrite Q2 by exact nontrivial.
    do 2 f_equal. destruct v as [v|]; cbn; [f_equal; ring|reflexivity].
  Qed.

  Lemma sparseC_contract A mt : mt <> CONJUGATE -> blasContract (sparseImplC isz A mt) (opM mt (castM A)).
  Proof.
    intros N t x y alpha beta Lx Ly. unfold sparseImplC.
    set (T := realTrans mt t).
    assert (Rw : opRows t (opM mt (castM A)) = opRows T A).
    { unfold T, realTrans. rewrite realTrans_ok by auto. destruct mt, t; try reflexivity; congruence. }
    assert (Cl : opCols t (opM mt (castM A)) = opCols T A).
    { unfold T, realTrans. rewrite realTrans_ok by auto. destruct mt, t; try reflexivity; congruence. }
    assert (At : forall i k, opAt t (opM mt (castM A)) i k = ((if isT_ T then m_at A k i else m_at A i k), zero) :> Cx K).
    { intros i k. unfold T, realTrans. rewrite realTrans_ok by auto.
      assert (Z : opp zero = zero :> K) by ring.
      destruct mt, t; try congruence; cbn; unfold cx_conj; cbn; rewrite ?Z; reflexivity. }
    rewrite Cl in Lx. rewrite Rw in Ly. unfold axpby. rewrite Rw, Cl. unfold sparseComplex.
    set (y1 := if cxz isz beta then map (fun _ : num (Cx K) => Some (zero : Cx K)) y else map (fun v => nmul v (Some beta)) y).
    assert (L1 : length y1 = opRows T A) by (unfold y1; destruct (cxz isz beta); rewrite map_length; exact Ly).
    set (xr := map (fun z : Cx K => fst z) x). set (xi := map (fun z : Cx K => snd z) x).
    assert (Lr : length xr = opCols T A) by (unfold xr; now rewrite map_length).
    assert (Li : length xi = opCols T A) by (unfold xi; now rewrite map_length).
    set (a := fst alpha). set (b := snd alpha). cbv zeta.
    destruct (@acc_ok A T xr (map (@re K) y1) a) as (r1 & E1 & M1 & P1); [exact Lr|now rewrite map_length|].
    destruct (@acc_ok A T xi r1 (opp b)) as (r2 & E2 & M2 & P2); [exact Li|exact M1|].
    destruct (@acc_ok A T xr (map (@im K) y1) b) as (i1 & E3 & M3 & P3); [exact Lr|now rewrite map_length|].
    destruct (@acc_ok A T xi i1 a) as (i2 & E4 & M4 & P4); [exact Li|exact M3|].
    assert (X : match sparseReal isz A T xr (map (@re K) y1) a one with
      | None => None
      | Some yr1 => match sparseReal isz A T xi yr1 (opp b) one with
        | None => None
        | Some yr2 => match sparseReal isz A T xr (map (@im K) y1) b one with
          | None => None
          | Some yi1 => match sparseReal isz A T xi yi1 a one with
            | None => None
            | Some yi2 => Some (zipWith (@mk K) yr2 yi2) end end end end = Some (zipWith (@mk K) r2 i2)).
    { rewrite E1, E2, E3, E4. reflexivity. }
    exists (zipWith (@mk K) r2 i2). split; [exact X|]. split; [rewrite zipWith_length; congruence|]. clear X.
    intros i Hi. set (s := bsum (seq 0 (opCols T A)) (fun k => mul (opAt t (opM mt (castM A)) i k) (nth k x zero))).
    cbv zeta.
    set (sr := bsum (K := K) (seq 0 (opCols T A)) (fun k => mul (if isT_ T then m_at A k i else m_at A i k) (nth k xr zero))) in *.
    set (si := bsum (K := K) (seq 0 (opCols T A)) (fun k => mul (if isT_ T then m_at A k i else m_at A i k) (nth k xi zero))) in *.
    assert (Sr : fst s = sr).
    { unfold s, sr. rewrite fst_bsumC. apply bsum_ext. intros k _. rewrite At. unfold xr. rewrite nth_map_fst. cbn. unfold cx_mul. cbn. ring. }
    assert (Si : snd s = si).
    { unfold s, si. rewrite snd_bsumC. apply bsum_ext. intros k _. rewrite At. unfold xi. rewrite nth_map_snd. cbn. unfold cx_mul. cbn. ring. }
    assert (Res : forall w, nth_error y1 i = Some (Some w) ->
       nth_error (zipWith (@mk K) r2 i2) i = Some (Some (add (mul alpha s) w))).
    { intros w Ew.
      specialize (P1 i (Some (fst w)) Hi). rewrite nth_error_map_, Ew in P1. specialize (P1 eq_refl).
      specialize (P2 i _ Hi P1).
      specialize (P3 i (Some (snd w)) Hi). rewrite nth_error_map_, Ew in P3. specialize (P3 eq_refl).
      specialize (P4 i _ Hi P3).
      erewrite zipWith_nth; [|exact P2|exact P4]. cbn [nadd mk]. f_equal. f_equal.
      fold si sr. rewrite <- Sr, <- Si. unfold a, b. apply injective_projections; cbn; ring. }
    destruct (@nth_some _ y i _ Ly Hi) as (v & Ev). unfold y1 in Res. split.
    - intros ->. rewrite (proj2 (cxzP zero) eq_refl) in Res. rewrite (Res zero).
      + f_equal. f_equal. apply injective_projections; cbn; ring.
      + rewrite nth_error_map_, Ev. reflexivity.
    - intros w Ew. assert (v = Some w) by congruence. subst v. destruct (cxz isz beta) eqn:Z.
      + apply cxzP in Z. subst beta. rewrite (Res zero).
        * f_equal. f_equal. apply injective_projections; cbn; ring.
        * rewrite nth_error_map_, Ev. reflexivity.
      + rewrite (Res (mul w beta)).
        * f_equal. f_equal. apply injective_projections; cbn; ring.
        * rewrite nth_error_map_, Ev. reflexivity.
  Qed.
End Cplx.
