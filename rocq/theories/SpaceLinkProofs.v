From Coq Require Import Sorted.
From Verif Require Import Base SegModel SegSpec SegProofs AsmModel AsmSpec ParProofs AsmProofs HBlockProofs SpaceModel SpaceSpec SpaceProofs.
Set Implicit Arguments.

Lemma flat_map_ext_In A B (f g : A -> list B) l : (forall x, In x l -> f x = g x) -> flat_map f l = flat_map g l.
Proof. induction l as [|a l IH]; intro H; cbn; [reflexivity|]. rewrite H by now left. f_equal. apply IH. intros; apply H; now right. Qed.
Section Link.
Context {K : star_ring}.
Add Ring Ksp : (sr_ring K).
Implicit Types m : dofmap K.

Lemma sp_dofs_entry m e i (d : Z) (w : K) :
  (exists ds, nth_error (sp_dofs (spaceOf m)) e = Some ds /\ nth_error ds i = Some (d, w)) <->
  globalDof m (Z.of_nat e) i d /\ dofWeight m (Z.of_nat e) i w.
Proof.
  unfold globalDof, dofWeight, spaceOf. cbn [sp_dofs]. 
  assert (C : forall A B (l : list A) (l' : list B) k, nth_error (combine l l') k =
    match nth_error l k, nth_error l' k with Some a, Some b => Some (a, b) | _, _ => None end).
  { intros A B l. induction l as [|a l IH]; intros [|b l'] [|k]; cbn; try reflexivity; [now destruct (nth_error l k)|apply IH]. }
  rewrite nth_error_map, C, !zget_nat. split.
  - intros (ds & H & H'). destruct (nth_error (dm_l2g m) e) as [a|]; [|discriminate]. destruct (nth_error (dm_w m) e) as [b|]; [|discriminate].
    injection H as <-. cbn [fst snd] in H'. rewrite C in H'.
    destruct (nth_error a i) eqn:E1; [|discriminate]. destruct (nth_error b i) eqn:E2; [|discriminate]. injection H' as <- <-.
    split; [exists a|exists b]; auto.
  - intros ((a & E1 & E2) & (b & E3 & E4)). rewrite E1, E3. cbn. eexists. split; [reflexivity|]. cbn [fst snd]. now rewrite C, E2, E4.
Qed.
Lemma weight_unique m e i w w' : dofWeight m e i w -> dofWeight m e i w' -> w = w'.
Proof. intros (a & A & B) (b & C & D). congruence. Qed.
Lemma withWeights_ok m : forall l, (forall e i, In (e, i) l -> (0 <= e)%Z /\ exists w, dofWeight m e i w) ->
  exists r, withWeights m l = Some r /\ map (fun x => (Z.of_nat (fst (fst x)), snd (fst x))) r = l /\
   forall x, In x r -> dofWeight m (Z.of_nat (fst (fst x))) (snd (fst x)) (snd x).
Proof.
  induction l as [|[e i] l IH]; intro H; unfold withWeights; cbn [map oseq].
  - exists []. repeat split. intros x [].
  - destruct (H e i (or_introl eq_refl)) as (P & w & ws & A & B). cbn [fst snd]. rewrite A. cbn [obind]. rewrite B. cbn [obind].
    destruct IH as (r & E & M & Q). { intros; apply H; now right. }
    unfold withWeights in E. rewrite E. cbn [obind]. eexists. split; [reflexivity|]. cbn [map fst snd]. rewrite Z2Nat.id by exact P.
    split; [now rewrite M|]. intros x [<-|I]; [|now apply Q]. cbn [fst snd]. rewrite Z2Nat.id by exact P. exists ws. auto.
Qed.
Lemma globalDof_nonneg m e i d : globalDof m e i d -> (0 <= e)%Z.
Proof. intros (ds & A & _). apply zget_lt in A. lia. Qed.
Lemma spaceOf_ok m : consistent m -> dofsInRange (spaceOf m) /\ g2lInverse (spaceOf m).
Proof.
  intros (C1 & C2 & C3). split.
  - intros ds g w I J. apply In_nth_error in I as (e & E). apply In_nth_error in J as (i & F).
    assert (X : exists ds, nth_error (sp_dofs (spaceOf m)) e = Some ds /\ nth_error ds i = Some (g, w)) by eauto.
    apply sp_dofs_entry in X as (X & _). unfold spaceOf; cbn [sp_count]. destruct (C1 _ _ _ X) as [->|R]; [lia|]. unfold globalDofCount in R. lia.
  - intros d L. unfold spaceOf in L |- *. cbn [sp_count sp_g2l] in *. destruct (C3 d L) as (l & E & N & Q). rewrite E. cbn [obind].
    destruct (@withWeights_ok m l) as (r & Er & Mr & Wr).
    { intros e i I. apply Q in I. split; [eapply globalDof_nonneg; eauto|]. apply C2. eauto. }
    exists r. split; [exact Er|]. split.
    + rewrite <- Mr in N. eapply NoDup_map_inv; eauto.
    + intros e i w. fold (spaceOf m). rewrite (sp_dofs_entry m e i (Z.of_nat d) w).
      assert (IL : In (Z.of_nat e, i) l <-> globalDof m (Z.of_nat e) i (Z.of_nat d)) by apply Q. split.
      * intro I. split; [|exact (Wr _ I)]. apply IL. rewrite <- Mr. apply in_map_iff. exists (e, i, w). auto.
      * intros (G & W). apply IL in G. rewrite <- Mr in G. apply in_map_iff in G as ([[e' i'] w'] & EQ & I). cbn [fst snd] in EQ.
        injection EQ as E1 E2. apply Nat2Z.inj in E1. subst e' i'. assert (w' = w); [|now subst].
        eapply weight_unique; [apply (Wr _ I)|exact W].
Qed.

(** ---- mapping matrix ---- *)
Lemma flat_cols (l2g : list (list Z)) :
  exists act : list (ldof * Z), map fst act = initializeLocal2FlatLocalDofMap l2g /\ map snd act = mappingCols l2g /\
  forall x d, In (x, d) act -> (0 <= d)%Z /\ exists ds, zget l2g (fst x) = Some ds /\ nth_error ds (snd x) = Some d.
Proof.
  unfold initializeLocal2FlatLocalDofMap, mappingCols, flatOfElement.
  assert (A : forall (e : nat) ds i0, exists act : list (ldof * Z),
     map fst act = flat_map (fun k => match nth_error ds k with Some g => if (0 <=? g)%Z then [(Z.of_nat e, (i0 + k)%nat)] else [] | None => [] end) (seq 0 (length ds)) /\
     map snd act = filter (fun g => (0 <=? g)%Z) ds /\
     forall x d, In (x, d) act -> fst x = Z.of_nat e /\ (0 <= d)%Z /\ exists k, snd x = (i0 + k)%nat /\ nth_error ds k = Some d).
  { intros e. induction ds as [|g ds IH]; intro i0; cbn [length seq flat_map filter nth_error].
    - exists []. repeat split; easy.
    - destruct (IH (S i0)) as (act & A1 & A2 & A3).
      assert (SH : flat_map (fun k => match nth_error (g :: ds) k with Some g0 => if (0 <=? g0)%Z then [(Z.of_nat e, (i0 + k)%nat)] else [] | None => [] end) (seq 1 (length ds))
        = map fst act).
      { rewrite A1, <- seq_shift, flat_map_concat_map, map_map, <- flat_map_concat_map. apply flat_map_ext. intro k. cbn [nth_error].
        replace (i0 + S k)%nat with (S i0 + k)%nat by lia. reflexivity. }
      rewrite SH, Nat.add_0_r.
      assert (A3' : forall x d, In (x, d) act -> fst x = Z.of_nat e /\ (0 <= d)%Z /\ exists k, snd x = (i0 + k)%nat /\ nth_error (g :: ds) k = Some d).
      { intros x d I. destruct (A3 x d I) as (B1 & B2 & k & B3 & B4). split; [exact B1|]. split; [exact B2|]. exists (S k). split; [lia|exact B4]. }
      destruct (Z.leb_spec 0 g) as [P|P].
      + exists (((Z.of_nat e, i0), g) :: act). cbn [map fst snd app]. split; [reflexivity|]. split; [now rewrite A2|].
        intros x d [H|I]; [|now apply A3']. injection H as <- <-. split; [reflexivity|]. split; [exact P|]. exists 0. split; [cbn; lia|reflexivity].
      + exists act. cbn [app]. split; [reflexivity|]. split; [exact A2|exact A3']. }
  enough (B : forall l e0, exists act : list (ldof * Z),
     map fst act = flat_map (fun e => let dofs := nth (e - e0) l [] in flat_map (fun dof => match nth_error dofs dof with Some g => if (0 <=? g)%Z then [(Z.of_nat e, dof)] else [] | None => [] end) (seq 0 (length dofs))) (seq e0 (length l)) /\
     map snd act = flat_map (fun ds => filter (fun g => (0 <=? g)%Z) ds) l /\
     forall x d, In (x, d) act -> (0 <= d)%Z /\ exists k ds, fst x = Z.of_nat (e0 + k) /\ nth_error l k = Some ds /\ nth_error ds (snd x) = Some d).
  { destruct (B l2g 0) as (act & B1 & B2 & B3). exists act. split.
    - rewrite B1. apply flat_map_ext. intro e. cbv zeta. now rewrite Nat.sub_0_r.
    - split; [exact B2|]. intros x d I. destruct (B3 x d I) as (P & k & ds & Q1 & Q2 & Q3). split; [exact P|]. exists ds.
      rewrite Q1. cbn [Nat.add]. rewrite zget_nat. auto. }
  induction l as [|ds l IH]; intro e0; cbn [length seq flat_map].
  - exists []. repeat split; easy.
  - destruct (A e0 ds 0) as (a1 & A1 & A2 & A3). destruct (IH (S e0)) as (a2 & C1 & C2 & C3).
    exists (a1 ++ a2). rewrite !map_app, A1, A2, C1, C2. split; [|split; [reflexivity|]].
    + f_equal; [cbv zeta; rewrite Nat.sub_diag; reflexivity|].
      apply flat_map_ext_In. intros e I. apply in_seq in I. replace (e - e0) with (S (e - S e0)) by lia. reflexivity.
    + intros x d I. apply in_app_iff in I as [I|I].
      * destruct (A3 x d I) as (Q1 & Q2 & k & Q3 & Q4). split; [exact Q2|]. exists 0, ds. rewrite Nat.add_0_r. split; [exact Q1|]. split; [reflexivity|]. rewrite Q3. exact Q4.
      * destruct (C3 x d I) as (Q2 & k & ds' & Q3 & Q4 & Q5). split; [exact Q2|]. exists (S k), ds'. split; [rewrite Q3; f_equal; lia|]. auto.
Qed.

Lemma mapping_ok m : consistent m -> dm_flat m = initializeLocal2FlatLocalDofMap (dm_l2g m) ->
  exists M, mappingMatrix m = Some M /\ m_rows M = flatLocalDofCount m /\ m_cols M = globalDofCount m /\
  forall r e i d, nth_error (dm_flat m) r = Some (e, i) -> globalDof m e i d ->
    forall c, m_at M r c = if (Z.of_nat c =? d)%Z then one else zero.
Proof.
  intros (C1 & C2 & C3) HF. destruct (flat_cols (dm_l2g m)) as (act & A1 & A2 & A3).
  assert (LA : length (mappingCols (dm_l2g m)) = length (dm_flat m)) by (rewrite HF, <- A1, <- A2, !map_length; reflexivity).
  unfold mappingMatrix, mappingTriplets. rewrite LA, Nat.eqb_refl. cbn [obind].
  set (cols := mappingCols (dm_l2g m)) in *. set (n := length (dm_flat m)) in *.
  assert (TR : forall t, In t (combine (combine (seq 0 n) cols) (repeat (one : K) n)) -> (0 <= snd (fst t) < Z.of_nat (globalDofCount m))%Z /\ fst (fst t) < n).
  { intros [[r c] v] I. apply in_combine_l in I. cbn [fst snd]. split; [|apply in_combine_l, in_seq in I; lia]. apply in_combine_r in I.
    rewrite <- A2 in I. apply in_map_iff in I as ([x d] & <- & I). destruct (A3 x d I) as (P & ds & Q1 & Q2). cbn [snd].
    destruct (C1 (fst x) (snd x) d) as [->|R]; [exists ds; auto|lia|exact R]. }
  assert (FB : forallb (fun t => let '(r, c, _) := t in (0 <=? c)%Z) (combine (combine (seq 0 n) cols) (repeat (one : K) n)) = true).
  { apply forallb_forall. intros [[r c] v] I. apply Z.leb_le. apply (TR _ I). }
  rewrite FB.
  destruct (@addAll_ok K (map (fun t => let '(r, c, v) := t in (r, Z.to_nat c, v)) (combine (combine (seq 0 n) cols) (repeat (one : K) n))) (zeroMat n (length (dm_g2l m))))
    as (M & E & R1 & R2 & P).
  { intros r c v I. apply in_map_iff in I as ([[r' c'] v'] & EQ & I). injection EQ as <- <- <-. destruct (TR _ I) as (B1 & B2). cbn [fst snd zeroMat m_rows m_cols] in *.
    unfold globalDofCount in B1. split; lia. }
  rewrite E. exists M. split; [reflexivity|]. split; [exact R1|]. split; [exact R2|].
  intros r e i d Hr G c. rewrite P. cbn [zeroMat m_at].
  assert (Hd : nth_error cols r = Some d).
  { rewrite HF, <- A1, nth_error_map in Hr. destruct (nth_error act r) as [[x d']|] eqn:Q; [|discriminate]. injection Hr as ->.
    assert (I : In (e, i, d') act) by (eapply nth_error_In; eauto). destruct (A3 _ _ I) as (_ & ds & Q1 & Q2).
    cbn [fst snd] in *. destruct G as (ds' & G1 & G2). assert (d' = d) by congruence. subst d'. rewrite <- A2, nth_error_map, Q. reflexivity. }
  assert (PD : (0 <= d)%Z). { assert (I : In d cols) by (eapply nth_error_In; eauto). rewrite <- A2 in I. apply in_map_iff in I as ([x d'] & <- & I). apply (A3 _ _ I). }
  assert (SU : forall l a rr, bsum (map (fun t : nat * Z * K => let '(r, c, v) := t in (r, Z.to_nat c, v)) (combine (combine (seq a (length l)) l) (repeat (one : K) (length l))))
      (fun u => let '(r0, c0, v) := u in if (rr =? r0) && (c =? c0) then v else zero)
      = if a <=? rr then match nth_error l (rr - a) with Some d => if c =? Z.to_nat d then one else zero | None => zero end else zero).
  { clear. induction l as [|x l IH]; intros a rr; cbn [length seq combine repeat map].
    - rewrite bsum_nil. destruct (a <=? rr); [|reflexivity]. destruct (rr - a); reflexivity.
    - rewrite bsum_cons, IH. destruct (Nat.eqb_spec rr a) as [->|N].
      + cbn [andb]. rewrite Nat.leb_refl, Nat.sub_diag. destruct (Nat.leb_spec (S a) a); [lia|]. cbn [nth_error]. ring.
      + cbn [andb]. destruct (Nat.leb_spec a rr), (Nat.leb_spec (S a) rr); try lia; [|ring].
        replace (rr - a) with (S (rr - S a)) by lia. cbn [nth_error]. ring. }
  unfold sumUps. fold n in LA. rewrite <- LA. specialize (SU cols 0 r).
  etransitivity; [apply (f_equal (add zero)); exact SU|]. cbn [Nat.leb]. rewrite Nat.sub_0_r, Hd.
  destruct (Nat.eqb_spec c (Z.to_nat d)), (Z.eqb_spec (Z.of_nat c) d); try lia; ring.
Qed.
End Link.
