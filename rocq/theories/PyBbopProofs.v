From Coq Require Import List Arith Bool Lia.
Import ListNotations.
From Verif Require Import Base ArrayModel AsmModel QuadModel MatAlg PyOpModel LocalCacheProofs PyOpSpec PyOpProofs PyBopModel PyBopProofs PyBlockModel PyBlockSpec PyBlockProofs PyBbopModel PyBbopSpec.
Set Implicit Arguments.

Section Proofs.
  Variable K : star_ring.
  Variable mass : space -> space -> mat K.
  Notation bheap := (bheap K).

  Lemma modifyAt_length (h : bheap) i f : length (modifyAt h i f) = length h.
  Proof. revert i. induction h as [|o h IH]; intros [|i]; cbn; auto. Qed.
  Lemma nth_modifyAt (h : bheap) i f k : nth_error (modifyAt h i f) k = if k =? i then option_map f (nth_error h k) else nth_error h k.
  Proof. revert i k. induction h as [|o h IH]; intros [|i] [|k]; cbn; auto. all: destruct (_ =? _); auto. Qed.
  Lemma nodes_modifyAt (h : bheap) i f : (forall o, bo_node (f o) = bo_node o) -> nodes (modifyAt h i f) = nodes h.
  Proof. intros F. unfold nodes. revert i. induction h as [|o h IH]; intros [|i]; cbn; auto; [rewrite F; auto|rewrite IH; auto]. Qed.
  Lemma nth_nodes (h : bheap) i : nth_error (nodes h) i = option_map (@bo_node K) (nth_error h i).
  Proof. unfold nodes. rewrite nth_error_map. reflexivity. Qed.
  Lemma nodes_length (h : bheap) : length (nodes h) = length h. Proof. apply map_length. Qed.

  (** references point to older objects *)
  Definition older (ns : list (bnode K)) : Prop := forall i n, nth_error ns i = Some n ->
    match n with MBlk ops r d c => length ops = length r /\ length d = length r /\ (forall row, In row ops -> length row = length c) /\
                 (forall i, nth_error r i = Some None -> forall row x, nth_error ops i = Some row -> In x row -> x = None) /\
                 (forall j, nth_error c j = Some None -> forall row x, In row ops -> nth_error row j = Some x -> x = None)
               | MSum a b | MProd a b => a < i /\ b < i | MScaled a _ => a < i end.

  Section Fixed.
    Variable ns : list (bnode K).
    Hypothesis OLD : older ns.
    Lemma spaces_det i r d c r' d' c' : hasSpaces ns i r d c -> hasSpaces ns i r' d' c' -> r = r' /\ d = d' /\ c = c'.
    Proof.
      intros H. revert r' d' c'. induction H as [i ops r d c N|i a b r d c N _ IH|i a x r d c N _ IH|i a b r d c r0 d0 c0 N _ IHa _ IHb]; intros r' d' c' G; inversion G; subst; try congruence.
      - match goal with B : nth_error ns i = Some (MBlk _ _ _ _) |- _ => rewrite N in B; injection B; intros; subst; auto end.
      - match goal with B : nth_error ns i = Some (MSum _ _) |- _ => rewrite N in B; injection B; intros; subst; auto end.
      - match goal with B : nth_error ns i = Some (MScaled _ _) |- _ => rewrite N in B; injection B; intros; subst; auto end.
      - match goal with B : nth_error ns i = Some (MProd _ _) |- _ => rewrite N in B; injection B; intros; subst; auto end.
        edestruct IHa as (A1 & A2 & _); [eassumption|]. edestruct IHb as (_ & _ & A3); [eassumption|]. auto.
    Qed.
    Lemma weak_det i x : weakIs mass ns i x -> forall y, weakIs mass ns i y -> x = y.
    Proof.
      intros H. pattern i, x, H. apply weakIs_mut with (P0 := fun i x _ => forall y, strongIs mass ns i y -> x = y); clear.
      - intros i ops r d c N y H. inversion H; subst; try congruence; clear H.
      - intros i a b x y N _ IHa _ IHb z H. inversion H; subst; try congruence. f_equal; [apply IHa|apply IHb]; congruence.
      - intros i a c x N _ IHa z H. inversion H; subst; try congruence. assert (a0 = a /\ c0 = c) as (-> & ->) by (split; congruence). f_equal. apply IHa; auto.
      - intros i a b x y N _ IHa _ IHb z H. inversion H; subst; try congruence. assert (a0 = a /\ b0 = b) as (-> & ->) by (split; congruence). f_equal; [apply IHa|apply IHb]; auto.
      - intros i r d c x S _ IH y H. inversion H; subst. 
        match goal with A : hasSpaces ns i _ _ _ |- _ => destruct (spaces_det S A) as (-> & -> & ->) end. f_equal. auto.
    Qed.
    Lemma spaces_ex i : i < length ns -> exists r d c, hasSpaces ns i r d c /\ length d = length r.
    Proof.
      induction i as [i IH] using lt_wf_ind. intros L. destruct (nth_error ns i) as [n|] eqn:N; [|apply nth_error_None in N; lia].
      pose proof (OLD i N) as O. destruct n as [ops r d c|a b|a x|a b].
      - exists r, d, c. split; [eapply SpBlk; eauto|apply O].
      - destruct (IH a) as (r & d & c & H & E); try lia. exists r, d, c. split; auto. eapply SpSum; eauto.
      - destruct (IH a) as (r & d & c & H & E); try lia. exists r, d, c. split; auto. eapply SpScaled; eauto.
      - destruct (IH a) as (r & d & c & H & E); try lia. destruct (IH b) as (r' & d' & c' & H' & _); try lia. exists r, d, c'. split; auto. eapply SpProd; eauto.
    Qed.
    Lemma weak_ex i : i < length ns -> exists x, weakIs mass ns i x.
    Proof.
      induction i as [i IH] using lt_wf_ind. intros L. destruct (nth_error ns i) as [n|] eqn:N; [|apply nth_error_None in N; lia].
      pose proof (OLD i N) as O. destruct n as [ops r d c|a b|a x|a b].
      - eexists. eapply WBlk; eauto.
      - destruct (IH a) as (x & Hx); try lia. destruct (IH b) as (y & Hy); try lia. eexists. eapply WSum; eauto.
      - destruct (IH a) as (y & Hx); try lia. eexists. eapply WScaled; eauto.
      - destruct (IH a) as (x & Hx); try lia. destruct (IH b) as (y & Hy); try lia. destruct (@spaces_ex b) as (r & d & c & S & _); [lia|]. eexists. eapply WProd; eauto. eapply SAny; eauto.
    Qed.
    Lemma spacesAt_ok h f i : nodes h = ns -> i < f -> i < length ns -> exists r d c, spacesAt f h i = Some (r, d, c) /\ hasSpaces ns i r d c.
    Proof.
      intros E. revert i. induction f as [|f IH]; intros i L Hi; [lia|]. destruct (nth_error ns i) as [n|] eqn:N; [|apply nth_error_None in N; lia].
      pose proof N as N'. rewrite <- E, nth_nodes in N'. destruct (nth_error h i) as [o|] eqn:Ho; [|discriminate]. cbn in N'. injection N' as Hn.
      cbn [spacesAt]. rewrite Ho, Hn. pose proof (OLD i N) as O. destruct n as [ops r d c|a b|a x|a b].
      - exists r, d, c. split; auto. eapply SpBlk; eauto.
      - destruct (IH a) as (r & d & c & S & H); try lia. exists r, d, c. split; auto. eapply SpSum; eauto.
      - destruct (IH a) as (r & d & c & S & H); try lia. exists r, d, c. split; auto. eapply SpScaled; eauto.
      - destruct (IH a) as (r & d & c & S & H); try lia. destruct (IH b) as (r' & d' & c' & S' & H'); try lia. exists r, d, c'. rewrite S, S'. split; auto. eapply SpProd; eauto.
    Qed.

    (** nothing is undefined *)
    Definition defined {A} (x : res A) : Prop := x <> Undefined.
    Lemma defined_bind A B (x : res A) (f : A -> res B) : defined x -> (forall a, x = Ok a -> defined (f a)) -> defined (bind x f).
    Proof. unfold defined. destruct x; cbn; auto; discriminate. Qed.
    Lemma defined_mapRes A B (f : A -> res B) l : (forall a, In a l -> defined (f a)) -> defined (mapRes f l).
    Proof.
      induction l as [|a l IH]; cbn; intros H; [discriminate|]. apply defined_bind; [apply H; auto|]. intros b _. apply defined_bind; [apply IH; auto|]. discriminate.
    Qed.
    Lemma defined_npAdd (a b : mat K) : defined (npAdd a b). Proof. unfold npAdd, defined. destruct (bcast (m_rows a) _); [|discriminate]. destruct (bcast (m_cols a) _); discriminate. Qed.
    Lemma defined_npDot (a b : mat K) : defined (npDot a b). Proof. unfold npDot, defined. destruct (_ =? _); discriminate. Qed.
    Lemma defined_pyAdd (a b : dop K) : defined (pyAdd a b).
    Proof.
      unfold pyAdd. assert (G : defined (if (fst (shape a) =? fst (shape b)) && (snd (shape a) =? snd (shape b)) then Ok (Sum a b) else Throws)) by (unfold defined; destruct (_ && _); discriminate).
      destruct a, b; auto; apply defined_bind; try discriminate; [apply defined_npAdd|]. unfold spAdd, defined. destruct (_ && _); discriminate.
    Qed.
    Lemma defined_pyMul (a b : dop K) : defined (pyMul a b).
    Proof.
      unfold pyMul. assert (G : defined (if snd (shape a) =? fst (shape b) then Ok (Prod a b) else Throws)) by (unfold defined; destruct (_ =? _); discriminate).
      destruct a, b; auto; apply defined_bind; try discriminate; apply defined_npDot.
    Qed.
    Lemma defined_transpose (o : dop K) : defined (transpose o).
    Proof.
      induction o; cbn; try discriminate; repeat (apply defined_bind; [assumption|intros ? _]); [apply defined_pyAdd|apply defined_pyMul|discriminate].
    Qed.
    Lemma defined_adjoint (o : dop K) : defined (adjoint o).
    Proof.
      induction o; cbn; try discriminate; repeat (apply defined_bind; [assumption|intros ? _]); [apply defined_pyAdd|apply defined_pyMul|discriminate].
    Qed.
    Lemma defined_build (e : expr K) : defined (build e).
    Proof.
      induction e; cbn; try discriminate; repeat (apply defined_bind; [assumption|intros ? _]);
        first [discriminate|apply defined_pyAdd|apply defined_pyMul|apply defined_transpose|apply defined_adjoint].
    Qed.
    Lemma defined_scan (l : list (nat * nat * dop K)) rows cols : defined (scan l rows cols).
    Proof.
      assert (G : forall l i d, defined (setDim l i d)).
      { intros m i d. unfold setDim, defined. destruct (nth_error m i) as [[e|]|]; try discriminate; [destruct (_ =? _); discriminate|]. destruct (upd _ _ _); discriminate. }
      revert rows cols. induction l as [|((i, j), o) l IH]; intros rows cols; cbn; [discriminate|]. apply defined_bind; auto. intros. apply defined_bind; auto.
    Qed.
    Lemma defined_mkBlocked (l : list (list (option (dop K)))) : defined (mkBlocked l).
    Proof.
      unfold mkBlocked. destruct l as [|r0 l]; [discriminate|]. destruct (negb _); [discriminate|]. apply defined_bind; [apply defined_scan|]. intros a _.
      unfold defined. destruct (_ && _); discriminate.
    Qed.
    Lemma defined_buildEntry (x : option (expr K)) : defined (buildEntry x).
    Proof. destruct x; cbn; [|discriminate]. apply defined_bind; [apply defined_build|discriminate]. Qed.
    Lemma defined_blocks (bs : list (list (option (expr K)))) : defined (bbuild (XBlocks bs)).
    Proof.
      cbn. apply defined_bind; [apply defined_mapRes; intros; apply defined_mapRes; intros; apply defined_buildEntry|]. intros l _.
      apply defined_bind; [apply defined_mkBlocked|]. discriminate.
    Qed.
    Lemma throws_or A (x : res A) : defined x -> (forall a, x <> Ok a) -> x = Throws.
    Proof. unfold defined. destruct x; intros D H; auto; [exfalso; eapply H; eauto|congruence]. Qed.

    (** range maps *)
    Definition rowD (r d : list (option space)) (n i : nat) : list (option (dop K)) :=
      map (fun j => if i =? j then match nth i r None, nth i d None with Some s, Some t => Some (Inverse (mass s t)) | _, _ => None end else None) (seq 0 n).
    Lemma rangeBlocks_build r d n : mapRes (mapRes (@buildEntry K)) (rangeBlocks mass r d n) = Ok (map (rowD r d n) (seq 0 (length r))).
    Proof.
      unfold rangeBlocks. rewrite <- (map_map (fun i => i) (fun i => rowD r d n i)). rewrite map_id. generalize (seq 0 (length r)). intros l.
      induction l as [|i l IH]; [reflexivity|]. cbn [map mapRes]. rewrite IH.
      assert (E : mapRes (@buildEntry K) (map (fun j => rangeEntry mass r d i j) (seq 0 n)) = Ok (rowD r d n i)).
      { unfold rowD. generalize (seq 0 n). intros m. induction m as [|j m IHm]; [reflexivity|]. cbn [map mapRes]. rewrite IHm. unfold rangeEntry. destruct (i =? j); auto.
        destruct (nth i r None); auto. destruct (nth i d None); auto. }
      rewrite E. reflexivity.
    Qed.
    Lemma rangeRows r d n l : (forall q, In q l -> nth (fst q) r None = fst (snd q) /\ nth (fst q) d None = snd (snd q)) ->
      mapRes (rangeRow mass n) l = Ok (map (rowD r d n) (map fst l)) \/
      mapRes (rangeRow mass n) l = Throws /\ exists i, In i (map fst l) /\ forall x, In x (rowD r d n i) -> x = None.
    Proof.
      induction l as [|(i, (s, t)) l IH]; intros H; [left; reflexivity|]. destruct (H _ (or_introl eq_refl)) as (A & B). cbn [fst snd] in A, B.
      assert (R : rangeRow mass n (i, (s, t)) = Ok (rowD r d n i) \/ rangeRow mass n (i, (s, t)) = Throws /\ forall x, In x (rowD r d n i) -> x = None).
      { unfold rangeRow, rowD. cbn [fst snd]. rewrite A, B. destruct s as [s|]; [|right; split; auto; intros x Hx; apply in_map_iff in Hx; destruct Hx as (j & <- & _); destruct (i =? j); auto].
        destruct t as [t|]; [|right; split; auto; intros x Hx; apply in_map_iff in Hx; destruct Hx as (j & <- & _); destruct (i =? j); auto].
        destruct (Nat.ltb_spec i n) as [L|L].
        - left. f_equal. apply map_ext. intros j. rewrite (Nat.eqb_sym j i). destruct (i =? j); auto. destruct (speq s t) eqn:E; auto. apply speq_eq in E. subst. auto.
        - right. split; auto. intros x Hx. apply in_map_iff in Hx. destruct Hx as (j & <- & Hj). apply in_seq in Hj. destruct (Nat.eqb_spec i j); auto. lia. }
      cbn [mapRes map fst]. destruct R as [-> | (-> & E)].
      - cbn [bind]. destruct IH as [-> | (-> & k & Hk & E)]; [intros q Hq; apply H; right; auto|left; reflexivity|]. right. cbn. split; auto. exists k. auto.
      - right. split; auto. exists i. cbn. auto.
    Qed.
    Lemma bind_Ok A (x : res A) : bind x (@Ok A) = x. Proof. destruct x; auto. Qed.
    Lemma combine_fst A B (l : list A) (m : list B) : length l = length m -> map fst (combine l m) = l.
    Proof. revert m. induction l as [|a l IH]; intros [|b m] E; cbn in *; try discriminate; auto. rewrite IH; auto. Qed.
    Lemma newRangeMap_ok r d c : length d = length r ->
      bind (newRangeMap mass (r, d, c)) (fun m => Ok (BLeaf m)) = bbuild (XBlocks (rangeBlocks mass r d (length c))).
    Proof.
      intros L. cbn [newRangeMap bbuild]. rewrite rangeBlocks_build. cbn [bind].
      destruct (@rangeRows r d (length c) (combine (seq 0 (length r)) (combine r d))) as [-> | (-> & i & Hi & E)].
      - intros (i, (s, t)) Hq. cbn [fst snd]. apply In_nth_error in Hq. destruct Hq as (k & Hk). apply nth_error_combine in Hk. destruct Hk as (H1 & H2).
        apply nth_error_combine in H2. destruct H2 as (H2 & H3). assert (Lk : k < length (seq 0 (length r))) by (apply nth_error_Some; congruence). rewrite seq_length in Lk.
        rewrite (nth_error_nth' _ 0) in H1 by (rewrite seq_length; lia). rewrite seq_nth in H1 by lia. injection H1 as <-. cbn. split; apply nth_error_nth; auto.
      - cbn [bind]. rewrite combine_fst; auto. rewrite combine_length, seq_length, L. lia.
      - cbn [bind]. symmetry. apply throws_or; [apply defined_bind; [apply defined_mkBlocked|discriminate]|]. intros b Hb. apply bind_ok in Hb. destruct Hb as (b' & Hb & _).
        destruct (mkBlocked_inv _ Hb) as (_ & EL & _ & _ & (C1 & _) & _). rewrite map_length, seq_length in EL.
        rewrite combine_fst in Hi by (rewrite combine_length, seq_length, L; lia). apply in_seq in Hi.
        destruct (C1 i) as (j & row & o & H1 & H2); [lia|]. rewrite nth_error_map, (nth_error_nth' _ 0) in H1 by (rewrite seq_length; lia). rewrite seq_nth in H1 by lia.
        cbn in H1. injection H1 as <-. apply nth_error_In in H2. apply E in H2. discriminate.
    Qed.
    Lemma incomplete_blocks i ops r d c : nth_error ns i = Some (MBlk ops r d c) -> complete (MBlk ops r d c) = false ->
      bbuild (XBlocks (map (map (option_map (@b_disc K))) ops)) = Throws.
    Proof.
      intros N C. pose proof (OLD i N) as (L1 & L2 & L3 & E1 & E2).
      apply throws_or; [apply defined_blocks|]. intros b Hb. cbn [bbuild] in Hb. apply bind_ok in Hb. destruct Hb as (l & Hl & Hb). apply bind_ok in Hb. destruct Hb as (b' & Hb & _).
      destruct (mkBlocked_inv _ Hb) as (NE & B1 & B2 & _ & (C1 & C2) & _).
      pose proof (mapRes_length _ _ Hl) as LL. rewrite map_length in LL.
      assert (ROW : forall k row, nth_error l k = Some row -> exists row0, nth_error ops k = Some row0 /\ mapRes (@buildEntry K) (map (option_map (@b_disc K)) row0) = Ok row).
      { intros k row Hk. assert (Lk : k < length ops) by (rewrite <- LL; apply nth_error_Some; congruence). destruct (nth_error ops k) as [row0|] eqn:Ek; [|apply nth_error_None in Ek; lia].
        exists row0. split; auto. eapply (mapRes_in _ _ Hl). eapply nth_error_In. apply nth_error_combine. split; [|exact Hk]. rewrite nth_error_map, Ek. reflexivity. }
      assert (ENT : forall k j row o, nth_error l k = Some row -> nth_error row j = Some (Some o) -> exists row0 x, nth_error ops k = Some row0 /\ nth_error row0 j = Some (Some x)).
      { intros k j row o Hk Hj. destruct (ROW k row Hk) as (row0 & H1 & H2). exists row0. pose proof (mapRes_length _ _ H2) as Lr. rewrite map_length in Lr.
        assert (Lj : j < length row0) by (rewrite <- Lr; apply nth_error_Some; congruence). destruct (nth_error row0 j) as [x|] eqn:Ej; [|apply nth_error_None in Ej; lia].
        destruct x as [x|]; [eauto|]. exfalso. assert (@buildEntry K None = Ok (Some o)) as Q; [|discriminate]. eapply (mapRes_in _ _ H2). eapply nth_error_In. apply nth_error_combine. split; [|exact Hj]. rewrite nth_error_map, Ej. reflexivity. }
      assert (LC : l <> [] -> length c = length (bl_cols b')).
      { intros _. destruct l as [|row l']; [contradiction|]. rewrite <- (B2 row (or_introl eq_refl)). destruct (ROW 0 row eq_refl) as (row0 & H1 & H2). rewrite (mapRes_length _ _ H2), map_length. symmetry. apply L3. eapply nth_error_In; eauto. }
      cbn in C. apply andb_false_iff in C. destruct C as [C|C].
      - assert (exists j, nth_error c j = Some None) as (j & Hj).
        { clear - C. induction c as [|[s|] c IH]; cbn in C; try discriminate; [destruct IH as (j & Hj); auto; exists (S j); auto|exists 0; auto]. }
        assert (Lj : j < length c) by (apply nth_error_Some; congruence). destruct (C2 j) as (k & row & o & H1 & H2); [rewrite <- LC; auto|].
        destruct (ENT _ _ _ _ H1 H2) as (row0 & x & H3 & H4). pose proof (E2 j Hj row0 (Some x) (nth_error_In _ _ H3) H4). discriminate.
      - assert (exists j, nth_error r j = Some None) as (j & Hj).
        { clear - C. induction r as [|[s|] r IH]; cbn in C; try discriminate; [destruct IH as (j & Hj); auto; exists (S j); auto|exists 0; auto]. }
        assert (Lj : j < length r) by (apply nth_error_Some; congruence). destruct (C1 j) as (k & row & o & H1 & H2); [lia|].
        destruct (ENT _ _ _ _ H1 H2) as (row0 & x & H3 & H4). pose proof (E1 j Hj row0 (Some x) H3 (nth_error_In _ _ H4)). discriminate.
    Qed.
    Lemma blocks_same (ops : list (list (option (blk K)))) : mapRes (mapRes (@buildBlk K)) ops = mapRes (mapRes (@buildEntry K)) (map (map (option_map (@b_disc K))) ops).
    Proof.
      assert (R : forall row, mapRes (@buildBlk K) row = mapRes (@buildEntry K) (map (option_map (@b_disc K)) row)).
      { induction row as [|[b|] row IH]; cbn; auto; rewrite IH; auto. }
      induction ops as [|row ops IH]; cbn; auto. rewrite R, IH. auto.
    Qed.

    (** the invariant *)
    Variable Q : nat -> Prop.
    Hypothesis QC : forall i n, Q i -> nth_error ns i = Some n -> match n with MBlk _ _ _ _ => True | MSum a b | MProd a b => Q a /\ Q b | MScaled a _ => Q a end.
    Definition BInv (h : bheap) : Prop := nodes h = ns /\ forall k o, nth_error h k = Some o ->
      (forall w, bo_weak o = Some w -> Q k /\ exists x, weakIs mass ns k x /\ bbuild x = Ok w) /\
      (forall m, bo_map o = Some m -> Q k /\ exists r d c, hasSpaces ns k r d c /\ bbuild (XBlocks (rangeBlocks mass r d (length c))) = Ok (BLeaf m)).
    Lemma binv_modify h i f : BInv h -> (forall o, bo_node (f o) = bo_node o) ->
      (forall o, nth_error h i = Some o -> (forall w, bo_weak (f o) = Some w -> bo_weak o = Some w \/ Q i /\ exists x, weakIs mass ns i x /\ bbuild x = Ok w) /\
         (forall m, bo_map (f o) = Some m -> bo_map o = Some m \/ Q i /\ exists r d c, hasSpaces ns i r d c /\ bbuild (XBlocks (rangeBlocks mass r d (length c))) = Ok (BLeaf m))) ->
      BInv (modifyAt h i f).
    Proof.
      intros (E & H) F G. split; [rewrite nodes_modifyAt; auto|]. intros k o Ho. rewrite nth_modifyAt in Ho. destruct (Nat.eqb_spec k i) as [->|N]; [|apply H; auto].
      destruct (nth_error h i) as [o'|] eqn:X; cbn in Ho; [|discriminate]. injection Ho as <-. destruct (G o' eq_refl) as (G1 & G2). destruct (H i o' X) as (H1 & H2).
      split; [intros w Hw; destruct (G1 w Hw); auto|intros m Hm; destruct (G2 m Hm); auto].
    Qed.
    Definition byields (c : bcomp K) (h : bheap) (r : res (bop K)) : Prop := snd (c h) = r /\ BInv (fst (c h)).
    Lemma byields_ret r h : BInv h -> byields (bret r) h r. Proof. intros H. split; auto. Qed.
    Lemma byields_then x f h r g : byields x h r -> (forall w h', BInv h' -> r = Ok w -> byields (f w) h' (g w)) -> byields (bthen x f) h (bind r g).
    Proof.
      intros (E & I) F. unfold byields, bthen. destruct (x h) as (h1, r1) eqn:X. cbn [fst snd] in *. subst r1. destruct r as [w| |]; cbn; auto. apply (F w h1 I eq_refl).
    Qed.
    Lemma byields_eq c h r r' : byields c h r -> r = r' -> byields c h r'. Proof. intros H <-. exact H. Qed.
    Lemma bobj_at h i n : BInv h -> nth_error ns i = Some n -> exists o, nth_error h i = Some o /\ bo_node o = n.
    Proof. intros (E & _) N. rewrite <- E, nth_nodes in N. destruct (nth_error h i) as [o|]; [|discriminate]. cbn in N. injection N as <-. eauto. Qed.
    Lemma bstrong_ok weak i r d c x : (forall rc h, BInv h -> byields (weak rc i) h (bbuild x)) -> hasSpaces ns i r d c -> length d = length r -> weakIs mass ns i x -> Q i ->
      forall rc h, BInv h -> byields (bstrongWith mass weak rc i) h (bbuild (XMul (XBlocks (rangeBlocks mass r d (length c))) x)).
    Proof.
      intros W S LD WX Qi rc h I. assert (exists n, nth_error ns i = Some n) as (n & N) by (inversion WX; eauto).
      destruct (bobj_at _ I N) as (o & Ho & Hn). pose proof I as (EN & IH). pose proof (IH i o Ho) as (_ & IM).
      unfold byields, bstrongWith. rewrite Ho, Hn. destruct (complete n) eqn:CN; cbn [negb].
      2: { cbn [snd fst]. split; auto. destruct n as [ops r' d' c'|a b|a y|a b]; try discriminate.
           assert (x = XBlocks (map (map (option_map (@b_disc K))) ops)) as -> by (eapply weak_det; eauto; eapply WBlk; eauto).
           remember (XBlocks (rangeBlocks mass r d (length c))) as e1 eqn:E1. remember (XBlocks (map (map (option_map (@b_disc K))) ops)) as e2 eqn:E2. cbn [bbuild].
           assert (D1 : defined (bbuild e1)) by (subst; apply defined_blocks). assert (T2 : bbuild e2 = Throws) by (subst; eapply incomplete_blocks; eauto). rewrite T2.
           destruct (bbuild e1) as [m| |]; auto. contradiction D1. reflexivity. }
      set (h0 := if rc then modifyAt h i (setBMap None) else h).
      assert (I0 : BInv h0). { unfold h0. destruct rc; auto. apply binv_modify; auto. intros o' _. cbn. split; [auto|discriminate]. }
      assert (FIN : forall m h', BInv h' -> bbuild (XBlocks (rangeBlocks mass r d (length c))) = Ok (BLeaf m) ->
        byields (bthen (weak rc i) (fun w => bret (bMul (BLeaf m) w))) h' (bbuild (XMul (XBlocks (rangeBlocks mass r d (length c))) x))).
      { intros m h' I' E. eapply byields_eq; [eapply byields_then with (g := fun w => bMul (BLeaf m) w); [apply W; auto|intros w h'' I'' _; apply byields_ret; auto]|].
        remember (XBlocks (rangeBlocks mass r d (length c))) as e1. cbn [bbuild]. rewrite E. reflexivity. }
      destruct (if rc then None else bo_map o) as [m|] eqn:X.
      - destruct rc; [discriminate|]. apply FIN; auto. destruct (IM m X) as (_ & r' & d' & c' & S' & E'). destruct (spaces_det S S') as (-> & -> & ->). exact E'.
      - destruct (@spacesAt_ok h (Datatypes.S (length h)) i EN) as (r' & d' & c' & E' & S').
        { assert (i < length h) by (apply nth_error_Some; congruence). lia. } { rewrite <- EN, nodes_length. apply nth_error_Some. congruence. }
        destruct (spaces_det S S') as (<- & <- & <-). rewrite E'. pose proof (@newRangeMap_ok r d c LD) as NR.
        destruct (newRangeMap mass (r, d, c)) as [m| |] eqn:M.
        + apply FIN; [|rewrite <- NR; reflexivity]. apply binv_modify; auto. intros o' _. cbn. split; [auto|]. intros m' Y. injection Y as <-. right. split; auto. exists r, d, c. split; auto.
        + cbn [snd fst]. split; auto. remember (XBlocks (rangeBlocks mass r d (length c))) as e1. cbn [bbuild]. rewrite <- NR. reflexivity.
        + cbn [snd fst]. split; auto. remember (XBlocks (rangeBlocks mass r d (length c))) as e1. cbn [bbuild]. rewrite <- NR. reflexivity.
    Qed.
    Lemma bweak_ok f : forall i x, i < f -> weakIs mass ns i x -> Q i -> forall rc h, BInv h -> byields (bweakForm mass f rc i) h (bbuild x).
    Proof.
      induction f as [|f IH]; intros i x L WX Qi rc h I; [lia|]. assert (exists n, nth_error ns i = Some n) as (n & N) by (inversion WX; eauto).
      destruct (bobj_at _ I N) as (o & Ho & Hn). pose proof I as (EN & IA). pose proof (IA i o Ho) as (IW & _).
      unfold byields. cbn [bweakForm]. rewrite Ho, Hn.
      destruct (if rc then None else bo_weak o) as [w|] eqn:X.
      - destruct rc; [discriminate|]. cbn. split; auto. destruct (IW w X) as (_ & x' & WX' & B). rewrite (weak_det WX WX'). auto.
      - set (h1 := if rc then modifyAt h i (setBWeak None) else h).
        assert (I1 : BInv h1). { unfold h1. destruct rc; auto. apply binv_modify; auto. intros o' _. cbn. split; [discriminate|auto]. }
        match goal with |- snd (?c h1) = ?r /\ _ => change (byields c h1 r) end.
        eapply byields_eq; [eapply byields_then with (g := @Ok _) (r := bbuild x)|apply bind_Ok].
        2: { intros w h' I' EW. split; [reflexivity|]. cbn [fst]. apply binv_modify; auto. intros o' _. cbn. split; [|auto]. intros w' Y. injection Y as <-. right. eauto. }
        pose proof (QC Qi N) as QN. pose proof (OLD i N) as ON.
        inversion WX as [i' ops r d c N'|i' a b y z N' Wa Wb|i' a c y N' Wa|i' a b y z N' Wa Sb]; subst i'; subst x; rewrite N in N'; injection N' as ->; cbn [bweakImpl].
        + destruct (complete (MBlk ops r d c)) eqn:C.
          * apply byields_ret with (r := bind (mapRes (mapRes (@buildBlk K)) ops) (fun l => bind (mkBlocked l) (fun b => Ok (BLeaf b)))) in I1.
            eapply byields_eq; [exact I1|]. rewrite blocks_same. reflexivity.
          * rewrite (incomplete_blocks _ N C). apply byields_ret; auto.
        + cbn [bbuild]. eapply byields_then; [apply IH; auto; lia || tauto|]. intros w h' I' _. eapply byields_then; [apply IH; auto; lia || tauto|]. intros w' h'' I'' _. apply byields_ret; auto.
        + cbn [bbuild]. eapply byields_then; [apply IH; auto; lia|]. intros w h' I' _. apply byields_ret; auto.
        + cbn [bbuild]. inversion Sb as [i' r d c z' Sp Wb]; subst i' z. eapply byields_then; [apply IH; auto; lia || tauto|]. intros w h' I' _.
          assert (LDx : length d = length r). { destruct (@spaces_ex b) as (r0 & d0 & c0 & Sp0 & E0); [|destruct (spaces_det Sp Sp0) as (-> & -> & _); exact E0].
            destruct ON as (_ & ON). assert (i < length ns) by (apply nth_error_Some; congruence). lia. }
          eapply byields_then; [apply bstrong_ok; auto; [|tauto]; intros rc' h2 I2; apply IH; auto; lia || tauto|]. intros w' h'' I'' _. apply byields_ret; auto.
    Qed.
  End Fixed.
End Proofs.
