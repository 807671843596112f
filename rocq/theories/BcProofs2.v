From Coq Require Import Reals Lra Sorted.
From Verif Require Import Base ComplexR SegModel SegSpec SegProofs AsmModel SpaceModel SpaceSpec SpaceProofs SpaceP1Proofs VecModel VecSpec BaryModel BarySpec BaryProofs BcModel BcSpec BcProofs.
Set Implicit Arguments.
Unset Strict Implicit.
Local Open Scope Z_scope.

Lemma upd_upd A : forall (l l' : list A) i v v', upd l i v = Some l' -> upd l' i v' = upd l i v'.
Proof.
  induction l as [|x l IH]; intros l' [|i] v v' E; cbn in *; try discriminate.
  - injection E as <-. reflexivity.
  - destruct (upd l i v) as [r|] eqn:U; [|discriminate]. injection E as <-. cbn. now rewrite (IH _ _ _ v' U).
Qed.
Lemma zset_zset A (l l' : list A) i v v' : zset l i v = Some l' -> zset l' i v' = zset l i v'.
Proof. unfold zset. destruct (i <? 0); [discriminate|]. apply upd_upd. Qed.
Lemma set_added st f c st1 h : addColumn st f c = Some st1 -> setColumn st1 f h = addColumn st f (h c).
Proof.
  unfold addColumn, setColumn, zpush. destruct (zget (bc_cols st) f) as [r|] eqn:G; cbn [obind]; [|discriminate].
  destruct (zset (bc_cols st) f (r ++ [c])) as [cs|] eqn:E; cbn [obind]; [|discriminate]. intro H. injection H as <-. cbn [bc_cols bc_l2g bc_w bc_g2l].
  rewrite (zset_get _ _ _ f E), Z.eqb_refl. cbn [obind]. rewrite rev_app_distr. cbn [rev app]. rewrite rev_involutive. now rewrite (zset_zset _ E).
Qed.
Lemma add_any st f c st1 c' : addColumn st f c = Some st1 -> exists st2, addColumn st f c' = Some st2.
Proof.
  unfold addColumn, zpush. destruct (zget (bc_cols st) f) as [r|] eqn:G; cbn [obind]; [|discriminate].
  destruct (zset (bc_cols st) f (r ++ [c])) as [cs|] eqn:E; cbn [obind]; [|discriminate]. intros _.
  destruct (zset_Some (bc_cols st) f (r ++ [c'])) as (cs' & E'); [apply (zset_lt _ _ _ E)|]. rewrite E'. cbn [obind]. eauto.
Qed.

Section Walk.
Variables (check : bool) (next e2f f2e : list Z) (d n : Z) (onB : bool) (target : Z) (w : R) (gap : Z -> bool).
Fixpoint entries (past : bool) (i : Z) (a c : R) (face : Z) (fs : list Z) : list entry :=
  match fs with
  | [] => [Entry face (Col a (if onB then (IZR n - 2) / (2 * IZR n) else 0)%R (1 / 2)) d w]
  | f :: fs' =>
    let b := (if onB then (if past then (IZR n - 1) / IZR n else -1 / IZR n) else - IZR i * 1 / (2 * IZR n))%R in
    let past' := if onB then (past || gap face)%bool else past in
    Entry face (Col a b c) d w ::
    entries past' (i - 1) (if onB then (if past' then - (IZR n - 1) / IZR n else 1 / IZR n) else IZR i * 1 / (2 * IZR n))%R 0 f fs'
  end.
Fixpoint chained (face : Z) (fs : list Z) : Prop :=
  match fs with [] => True | f :: r => zget next face = Some f /\ chained f r end.
Definition top (st2 : bcstate) : outcome bcstate :=
  access (st3 <- setColumn st2 target (fun c => Col (k0 c) (if onB then (IZR n - 2) / (2 * IZR n) else k1 c)%R (1 / 2)) ;; pushDof st3 target d w) Done.
Lemma walk_entries : forall fs fuel i past face a c st st0 st',
  chained face fs -> last (face :: fs) (-1) = target -> NoDup (face :: fs) -> (length fs <= fuel)%nat -> Z.of_nat (length fs) <= i + 3 * n + 1 ->
  (onB = true -> forall f, In f (face :: fs) -> exists x y, zget f2e f = Some x /\ zget e2f x = Some y /\ gap f = (y =? -1)) ->
  addColumn st face (Col a 0 c) = Some st0 -> ofold addFull (entries past i a c face fs) st = Some st' ->
  bindO (walk check next e2f f2e d n onB target w fuel i face past st0) top = Done st'.
Proof.
  induction fs as [|f fs IH]; intros fuel i past face a c st st0 st' CH LA ND FU BI GP AC OF.
  - cbn in LA. subst face. assert (W : walk check next e2f f2e d n onB target w fuel i target past st0 = Done st0) by (destruct fuel; cbn [walk]; now rewrite Z.eqb_refl).
    rewrite W. cbn [bindO]. unfold top. rewrite (set_added _ AC). cbn [entries ofold] in OF. cbn [k0 k1 k2].
    unfold addFull in OF. cbn [en_face en_col en_dof en_w] in OF.
    destruct (addColumn st target (Col a (if onB then ((IZR n - 2) / (2 * IZR n))%R else 0%R) (1 / 2))) as [x|]; cbn [obind] in *; [|discriminate].
    destruct (pushDof x target d w); cbn [obind access] in *; [|discriminate]. now injection OF as ->.
  - assert (NT : face <> target).
    { intros ->. inversion ND as [|? ? NI _]. clear H H0 l x. apply NI.
      assert (X : forall (l : list Z) x, In (last (x :: l) (-1)) (x :: l)). { induction l as [|y l IHl]; intro z; [now left|]. right. apply IHl. }
      change (last (target :: f :: fs) (-1)) with (last (f :: fs) (-1)) in LA. rewrite <- LA at 1. apply X. }
    destruct fuel as [|fuel]; [cbn in FU; lia|]. cbn [walk]. destruct (Z.eqb_spec face target); [contradiction|].
    assert (CK : (check && (i <? - n * 3))%bool = false). { cbn [length] in BI. destruct (Z.ltb_spec i (- n * 3)); [lia|]. apply andb_false_r. }
    rewrite CK. cbn [chained] in CH. destruct CH as (NX & CH).
    cbn [entries] in OF. cbv zeta in OF. cbn [ofold] in OF.
    set (b := if onB then if past then ((IZR n - 1) / IZR n)%R else (-1 / IZR n)%R else (- IZR i * 1 / (2 * IZR n))%R) in *.
    set (past' := if onB then (past || gap face)%bool else past) in *.
    match type of OF with context [addFull st ?x] => destruct (addFull st x) as [st2|] eqn:AF; cbn [obind] in OF; [|discriminate] end.
    assert (BE : (if onB then if past then Some (((IZR n - 1) / IZR n)%R, true) else a <- zget f2e face ;; x <- zget e2f a ;; Some ((-1 / IZR n)%R, x =? -1)
                  else Some ((- IZR i * 1 / (2 * IZR n))%R, past)) = Some (b, past')).
    { unfold b, past'. destruct onB; [|reflexivity]. destruct past; [reflexivity|]. destruct (GP eq_refl face (or_introl eq_refl)) as (x & y & -> & H & ->). cbn [obind]. rewrite H. reflexivity. }
    rewrite BE. cbn [access]. rewrite (set_added _ AC). cbn [k0 k2]. unfold addFull in AF. cbn [en_face en_col en_dof en_w] in AF. rewrite AF. cbn [access]. rewrite NX. cbn [access].
    set (a' := if onB then if past' then (- (IZR n - 1) / IZR n)%R else (1 / IZR n)%R else (IZR i * 1 / (2 * IZR n))%R) in *.
    assert (EX : exists st3, addColumn st2 f (Col a' 0 0) = Some st3).
    { destruct fs as [|f' fs']; cbn [entries ofold] in OF; cbv zeta in OF; unfold addFull at 1 in OF; cbn [en_face en_col] in OF.
      - destruct (addColumn st2 f (Col a' (if onB then ((IZR n - 2) / (2 * IZR n))%R else 0%R) (1 / 2))) eqn:Q; cbn [obind] in OF; [|discriminate]. eapply add_any; eassumption.
      - match type of OF with context [addColumn st2 f ?cc] => destruct (addColumn st2 f cc) eqn:Q; cbn [obind] in OF; [|discriminate] end. eapply add_any; eassumption. }
    destruct EX as (st3 & A3). rewrite A3. cbn [access].
    eapply IH; [exact CH| | | | | |exact A3|exact OF].
    + exact LA.
    + now inversion ND.
    + cbn [length] in FU. lia.
    + cbn [length] in BI. lia.
    + intros Q x I. apply GP; [exact Q|now right].
Qed.
Definition walkEntries (face : Z) (fs : list Z) : list entry := entries false (n - 1) (if onB then - (IZR n - 2) / (2 * IZR n) else 0)%R (1 / 2) face fs.
Lemma walkEnd_entries fs fuel face st st' :
  zget next target = Some face -> chained face fs -> last (face :: fs) (-1) = target -> NoDup (face :: fs) -> (length fs <= fuel)%nat -> Z.of_nat (length fs) <= 4 * n ->
  (onB = true -> forall f, In f (face :: fs) -> exists x y, zget f2e f = Some x /\ zget e2f x = Some y /\ gap f = (y =? -1)) ->
  ofold addFull (walkEntries face fs) st = Some st' ->
  walkEnd check next e2f f2e d n onB target w fuel st = Done st'.
Proof.
  intros NX CH LA ND FU BI GP OF. unfold walkEnd. rewrite NX. cbn [access].
  assert (EX : exists st1, addColumn st face (Col (if onB then (- (IZR n - 2) / (2 * IZR n))%R else 0%R) 0 (1 / 2)) = Some st1).
  { unfold walkEntries in OF. destruct fs as [|f' fs']; cbn [entries ofold] in OF; cbv zeta in OF; unfold addFull at 1 in OF; cbn [en_face en_col] in OF;
      match type of OF with context [addColumn st face ?cc] => destruct (addColumn st face cc) eqn:Q; cbn [obind] in OF; [|discriminate] end; eapply add_any; eassumption. }
  destruct EX as (st1 & A1). rewrite A1. cbn [access]. eapply walk_entries; try eassumption; lia.
Qed.
Lemma entries_faces : forall fs past i a c face, map en_face (entries past i a c face fs) = face :: fs.
Proof. induction fs as [|f fs IH]; intros; cbn [entries map en_face]; [reflexivity|]. cbv zeta. now rewrite IH. Qed.
Lemma entries_dof : forall fs past i a c face x, In x (entries past i a c face fs) -> en_dof x = d /\ en_w x = w.
Proof. induction fs as [|f fs IH]; intros past i a c face x I; cbn [entries In] in I; cbv zeta in I; destruct I as [<-|I]; auto; [destruct I|]. eapply IH; exact I. Qed.
End Walk.
