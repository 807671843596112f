From Coq Require Import Reals Lra Sorted.
From Verif Require Import Base ComplexR SegModel SegSpec SegProofs AsmModel SpaceModel SpaceSpec SpaceProofs SpaceP1Proofs VecModel VecSpec BaryModel BarySpec BaryProofs BcModel BcSpec.
Set Implicit Arguments.
Unset Strict Implicit.
Local Open Scope Z_scope.

(** ---- writes ---- *)
Lemma writes_spec A : forall (ws : list (Z * A)) l, (forall x v, In (x, v) ws -> 0 <= x < Z.of_nat (length l)) ->
  exists l', writes ws l = Some l' /\ length l' = length l /\
  forall x, (exists v, In (x, v) ws /\ zget l' x = Some v) \/ ((forall v, ~ In (x, v) ws) /\ zget l' x = zget l x).
Proof.
  unfold writes. induction ws as [|(y, w) ws IH]; intros l H; cbn [ofold].
  - exists l. split; [reflexivity|]. split; [reflexivity|]. intro x. right. split; [intros v []|reflexivity].
  - cbn [fst snd]. destruct (zset_Some l y w) as (l1 & E1); [apply (H y w); now left|]. rewrite E1. cbn [obind].
    destruct (IH l1) as (l' & E & L & P). { intros x v I. rewrite (zset_length _ _ _ E1). apply (H x v). now right. }
    exists l'. split; [exact E|]. rewrite (zset_length _ _ _ E1) in L. split; [exact L|]. intro x.
    destruct (P x) as [(v & I & G)|(N & G)]; [left; exists v; split; [now right|exact G]|].
    rewrite (zset_get _ _ _ x E1) in G. destruct (Z.eqb_spec x y) as [->|D].
    + left. exists w. split; [now left|exact G].
    + right. split; [|exact G]. intros v [I|I]; [injection I as <- <-; congruence|now apply (N v)].
Qed.
(** all writes to x write v *)
Lemma writes_value A (ws : list (Z * A)) l l' x v : (forall x v, In (x, v) ws -> 0 <= x < Z.of_nat (length l)) -> writes ws l = Some l' ->
  In (x, v) ws -> (forall v', In (x, v') ws -> v' = v) -> zget l' x = Some v.
Proof.
  intros H E I U. destruct (writes_spec H) as (l1 & E1 & _ & P). assert (l1 = l') by congruence. subst l1.
  destruct (P x) as [(v' & I' & G)|(N & _)]; [rewrite G; f_equal; now apply U|]. now apply N in I.
Qed.
Lemma writes_none A (ws : list (Z * A)) l l' x : (forall x v, In (x, v) ws -> 0 <= x < Z.of_nat (length l)) -> writes ws l = Some l' ->
  (forall v', ~ In (x, v') ws) -> zget l' x = zget l x.
Proof.
  intros H E I. destruct (writes_spec H) as (l1 & E1 & _ & P). assert (l1 = l') by congruence. subst l1.
  destruct (P x) as [(v' & I' & G)|(N & G)]; [now apply I in I'|exact G].
Qed.

(** ---- adding complete entries ---- *)
Record entry := Entry { en_face : Z; en_col : col; en_dof : Z; en_w : R }.
Definition addFull (st : bcstate) (x : entry) : option bcstate :=
  st1 <- addColumn st (en_face x) (en_col x) ;; pushDof st1 (en_face x) (en_dof x) (en_w x).
Definition onFace (f : Z) (x : entry) : bool := en_face x =? f.
Definition row_ (E : list entry) (f : Z) : list entry := filter (onFace f) E.
Definition stateOf (nf nd : nat) (E : list entry) (st : bcstate) : Prop :=
  length (bc_cols st) = nf /\ length (bc_l2g st) = nf /\ length (bc_w st) = nf /\ length (bc_g2l st) = nd /\
  (forall f, 0 <= f < Z.of_nat nf -> zget (bc_cols st) f = Some (map en_col (row_ E f)) /\ zget (bc_l2g st) f = Some (map en_dof (row_ E f)) /\
                                     zget (bc_w st) f = Some (map en_w (row_ E f))) /\
  (forall d, 0 <= d < Z.of_nat nd -> exists l, zget (bc_g2l st) d = Some l /\ NoDup l /\
     forall f k, In (f, k) l <-> 0 <= f < Z.of_nat nf /\ nth_error (map en_dof (row_ E f)) k = Some d).
Definition entryOk (nf nd : nat) (x : entry) : Prop := 0 <= en_face x < Z.of_nat nf /\ 0 <= en_dof x < Z.of_nat nd.

Lemma zpush_get A (l : list (list A)) i x : 0 <= i < Z.of_nat (length l) ->
  exists l', zpush l i x = Some l' /\ length l' = length l /\ forall k r, zget l k = Some r -> zget l' k = Some (if k =? i then r ++ [x] else r).
Proof.
  intro H. destruct (zpush_spec x H) as (l' & E & L & P). exists l'. split; [exact E|]. split; [exact L|]. intros k r K. pose proof (zget_lt _ _ K) as B.
  rewrite <- (Z2Nat.id k) in K |- * by lia. rewrite zget_nat in *. rewrite (P _ _ K). rewrite (Z.eqb_sym i). reflexivity.
Qed.
Lemma row_snoc E x f : row_ (E ++ [x]) f = row_ E f ++ (if en_face x =? f then [x] else []).
Proof. unfold row_. rewrite filter_app. f_equal. Qed.
Lemma addFull_ok nf nd E st x : stateOf nf nd E st -> entryOk nf nd x -> exists st', addFull st x = Some st' /\ stateOf nf nd (E ++ [x]) st'.
Proof.
  intros (L1 & L2 & L3 & L4 & A & B) (F & D). unfold addFull, addColumn.
  destruct (@zpush_get col (bc_cols st) (en_face x) (en_col x)) as (c' & E1 & M1 & P1); [lia|]. rewrite E1. cbn [obind]. unfold pushDof. cbn [bc_cols bc_l2g bc_w bc_g2l].
  destruct (A _ F) as (A1 & A2 & A3). pose proof (P1 _ _ A1) as G1. rewrite Z.eqb_refl in G1. rewrite G1. cbn [obind].
  destruct (@zpush_get Z (bc_l2g st) (en_face x) (en_dof x)) as (l' & E2 & M2 & P2); [lia|]. rewrite E2. cbn [obind].
  destruct (@zpush_get R (bc_w st) (en_face x) (en_w x)) as (w' & E3 & M3 & P3); [lia|]. rewrite E3. cbn [obind].
  match goal with |- context [zpush (bc_g2l st) _ ?y] => set (new := y) end.
  destruct (@zpush_get ldof (bc_g2l st) (en_dof x) new) as (g' & E4 & M4 & P4); [lia|]. rewrite E4. cbn [obind].
  eexists. split; [reflexivity|]. cbn [bc_cols bc_l2g bc_w bc_g2l].
  assert (NEW : new = (en_face x, length (map en_dof (row_ E (en_face x))))).
  { unfold new. rewrite app_length, !map_length. cbn. f_equal. lia. }
  split; [cbn; congruence|]. split; [cbn; congruence|]. split; [cbn; congruence|]. split; [cbn; congruence|]. split.
  - intros f Hf. destruct (A f Hf) as (B1 & B2 & B3). cbn. rewrite (P1 _ _ B1), (P2 _ _ B2), (P3 _ _ B3). rewrite !row_snoc, (Z.eqb_sym (en_face x) f).
    destruct (Z.eqb_spec f (en_face x)); rewrite !map_app; cbn [map]; rewrite ?app_nil_r; auto.
  - intros d Hd. destruct (B d Hd) as (l & C1 & C2 & C3). cbn. rewrite (P4 _ _ C1).
    assert (FR : ~ In new l). { intro I. rewrite NEW in I. apply C3 in I as (_ & I). assert (nth_error (map en_dof (row_ E (en_face x))) (length (map en_dof (row_ E (en_face x)))) <> None) by congruence. apply nth_error_Some in H. lia. }
    eexists. split; [reflexivity|]. destruct (Z.eqb_spec d (en_dof x)) as [->|N].
    + split. { apply RangeProofs.NoDup_app2; [exact C2|repeat constructor; intros []|]. intros y Y [<-|[]]. contradiction. }
      intros f k. rewrite in_app_iff, C3, row_snoc, map_app. cbn [In]. rewrite NEW.
      destruct (Z.eqb_spec (en_face x) f) as [<-|D'].
      * cbn [map]. split.
        -- intros [(H1 & H2)|[H|[]]].
           ++ split; [exact H1|]. rewrite nth_error_app1; [exact H2|]. apply nth_error_Some. congruence.
           ++ injection H as <-. split; [exact F|]. rewrite nth_error_app2, Nat.sub_diag by lia. reflexivity.
        -- intros (H1 & H2). destruct (Nat.lt_ge_cases k (length (map en_dof (row_ E (en_face x))))) as [LT|GE].
           ++ left. rewrite nth_error_app1 in H2 by exact LT. auto.
           ++ right. left. f_equal. rewrite nth_error_app2 in H2 by exact GE. destruct (k - length (map en_dof (row_ E (en_face x))))%nat eqn:K; [lia|]. cbn in H2. destruct n; discriminate.
      * cbn [map]. rewrite app_nil_r. split; [intros [H|[H|[]]]; [exact H|injection H as H _; congruence]|auto].
    + split; [exact C2|]. intros f k. rewrite C3, row_snoc, map_app. destruct (Z.eqb_spec (en_face x) f) as [<-|D']; cbn [map]; [|now rewrite app_nil_r].
      split; intros (H1 & H2); (split; [exact H1|]).
      * rewrite nth_error_app1; [exact H2|]. apply nth_error_Some. congruence.
      * destruct (Nat.lt_ge_cases k (length (map en_dof (row_ E (en_face x))))) as [LT|GE]; [now rewrite nth_error_app1 in H2|].
        rewrite nth_error_app2 in H2 by exact GE. destruct (k - length (map en_dof (row_ E (en_face x))))%nat; cbn in H2; [congruence|destruct n; discriminate].
Qed.
Lemma addAll_ok nf nd : forall xs E st, stateOf nf nd E st -> (forall x, In x xs -> entryOk nf nd x) ->
  exists st', ofold addFull xs st = Some st' /\ stateOf nf nd (E ++ xs) st'.
Proof.
  induction xs as [|x xs IH]; intros E st S H; cbn [ofold].
  - exists st. split; [reflexivity|now rewrite app_nil_r].
  - destruct (addFull_ok S (H x (or_introl eq_refl))) as (st1 & E1 & S1). rewrite E1. cbn [obind].
    destruct (IH (E ++ [x]) st1 S1) as (st' & E' & S'); [intros; apply H; now right|]. exists st'. split; [exact E'|]. now rewrite <- app_assoc in S'.
Qed.
Lemma state_init nf nd : stateOf nf nd [] (BcState (repeat [] nf) (repeat [] nf) (repeat [] nf) (repeat [] nd)).
Proof.
  unfold stateOf. cbn [bc_cols bc_l2g bc_w bc_g2l]. rewrite !repeat_length. split; [reflexivity|]. split; [reflexivity|]. split; [reflexivity|]. split; [reflexivity|]. split.
  - intros f H. cbn [row_ filter map]. now rewrite !zget_repeat by lia.
  - intros d H. exists []. rewrite zget_repeat by lia. split; [reflexivity|]. split; [constructor|]. intros f k. cbn [row_ filter map]. split; [intros []|]. intros (_ & X). destruct k; discriminate.
Qed.

(** ---- after padding ---- *)
Definition rowOf (E : list entry) (f : Z) : list entry := match row_ E f with [] => [Entry f (Col 0 0 0) (-1) 1] | l => l end.
Lemma zget_combine A B (l : list A) (l' : list B) k a b : zget l k = Some a -> zget l' k = Some b -> zget (combine l l') k = Some (a, b).
Proof.
  unfold zget. destruct (k <? 0); [discriminate|]. generalize (Z.to_nat k). intro n. revert l l'. induction n as [|n IH]; intros [|x l] [|y l']; cbn; try discriminate; [congruence|apply IH].
Qed.
Lemma finish_ok nf nd E st : stateOf nf nd E st -> (forall x, In x E -> entryOk nf nd x) ->
  let b := finish st in
  globalDofCount (bc_map b) = nd /\ consistent (bc_map b) /\ flatEnumerates (bc_map b) /\
  forall f, 0 <= f < Z.of_nat nf -> zget (dm_l2g (bc_map b)) f = Some (map en_dof (rowOf E f)) /\ zget (dm_w (bc_map b)) f = Some (map en_w (rowOf E f) : list Rsr) /\
    zget (bc_coeffs b) f = Some (map en_col (rowOf E f)).
Proof.
  intros (L1 & L2 & L3 & L4 & A & B) OK b.
  assert (ROWS : forall f, 0 <= f < Z.of_nat nf -> zget (dm_l2g (bc_map b)) f = Some (map en_dof (rowOf E f)) /\ zget (dm_w (bc_map b)) f = Some (map en_w (rowOf E f) : list Rsr) /\
    zget (bc_coeffs b) f = Some (map en_col (rowOf E f))).
  { intros f Hf. destruct (A f Hf) as (A1 & A2 & A3). unfold b, finish. cbn [bc_map bc_coeffs dm_l2g dm_w]. rewrite !zget_map.
    rewrite (zget_combine A2 A1), (zget_combine A3 A1), A1. cbn [option_map fst snd]. unfold rowOf, padRow.
    destruct (row_ E f); cbn [map app en_dof en_w en_col]; auto. }
  assert (LEN : length (dm_l2g (bc_map b)) = nf /\ length (dm_w (bc_map b)) = nf).
  { unfold b, finish. cbn [bc_map dm_l2g dm_w]. rewrite !map_length, !combine_length. lia. }
  assert (SAME : forall f d, 0 <= d -> forall k, nth_error (map en_dof (rowOf E f)) k = Some d <-> nth_error (map en_dof (row_ E f)) k = Some d).
  { intros f d Hd k. unfold rowOf. destruct (row_ E f); [|reflexivity]. cbn [map en_dof]. destruct k as [|[|k]]; cbn; split; intro X; try discriminate. injection X as <-. lia. }
  split; [exact L4|]. split; [split; [|split]|split; [|exact ROWS]].
  - intros e i d (ds & G & D). pose proof (zget_lt _ _ G) as R. destruct LEN as (LE & _). assert (R' : 0 <= e < Z.of_nat nf) by lia.
    destruct (ROWS e R') as (R1 & _). assert (ds = map en_dof (rowOf E e)) by congruence. subst ds. unfold rowOf in D.
    destruct (row_ E e) as [|x r] eqn:Q.
    + destruct i as [|[|]]; cbn in D; try discriminate. injection D as <-. now left.
    + right. rewrite <- Q in D. apply nth_error_In in D. apply in_map_iff in D as (y & <- & Y). apply filter_In in Y as (Y & _). destruct (OK y Y) as (_ & Z). change (globalDofCount (bc_map b)) with (length (bc_g2l st)). rewrite L4. exact Z.
  - intros e i. split.
    + intros (d & ds & G & D). pose proof (zget_lt _ _ G) as R. destruct LEN as (LE & _). assert (R' : 0 <= e < Z.of_nat nf) by lia.
      destruct (ROWS e R') as (R1 & R2 & _). assert (i < length (rowOf E e))%nat. { assert (nth_error ds i <> None) as NN by congruence. apply nth_error_Some in NN. assert (ds = map en_dof (rowOf E e)) by congruence. subst ds. now rewrite map_length in NN. }
      destruct (nth_error (map en_w (rowOf E e)) i) as [w|] eqn:W; [|apply nth_error_None in W; rewrite map_length in W; lia]. exists w, (map en_w (rowOf E e)). auto.
    + intros (w & ws & G & D). pose proof (zget_lt _ _ G) as R. destruct LEN as (_ & LE). assert (R' : 0 <= e < Z.of_nat nf) by lia.
      destruct (ROWS e R') as (R1 & R2 & _). assert (i < length (rowOf E e))%nat. { assert (nth_error ws i <> None) as NN by congruence. apply nth_error_Some in NN. rewrite R2 in G. injection G as <-. now rewrite map_length in NN. }
      destruct (nth_error (map en_dof (rowOf E e)) i) as [w'|] eqn:W; [|apply nth_error_None in W; rewrite map_length in W; lia]. exists w', (map en_dof (rowOf E e)). auto.
  - intros d Hd. assert (R : 0 <= Z.of_nat d < Z.of_nat nd) by (change (globalDofCount (bc_map b)) with (length (bc_g2l st)) in Hd; lia). destruct (B _ R) as (l & G & ND & I). exists l. rewrite zget_nat in G. split; [exact G|]. split; [exact ND|].
    intros e i. rewrite I. split.
    + intros (He & N). exists (map en_dof (rowOf E e)). split; [apply (ROWS e He)|]. apply SAME; [lia|exact N].
    + intros (ds & G' & D). pose proof (zget_lt _ _ G') as R'. destruct LEN as (LE & _). assert (R'' : 0 <= e < Z.of_nat nf) by lia. split; [exact R''|].
      destruct (ROWS e R'') as (R1 & _). assert (ds = map en_dof (rowOf E e)) by congruence. subst ds. apply SAME in D; [exact D|lia].
  - apply flatEnumerates_init. reflexivity.
Qed.
