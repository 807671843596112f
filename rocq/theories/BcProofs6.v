From Coq Require Import Reals Lra Sorted.
From Verif Require Import Base ComplexR SegModel SegSpec SegProofs AsmModel SpaceModel SpaceSpec SpaceProofs SpaceP1Proofs SpaceRwgProofs PolySpec PolyProofs6 VecModel VecSpec VecProofs3 VecProofs4
  BaryModel BarySpec BaryProofs BaryProofs2 BaryProofs3 BaryProofs4 BcModel BcSpec BcProofs BcProofs2 BcProofs3 BcProofs4 BcProofs5.
Set Implicit Arguments.
Unset Strict Implicit.
Local Open Scope Z_scope.

(** ---- closed form of the columns of one walk ---- *)
Section Closed.
Variables (d n : Z) (onB : bool) (w : R) (gap : Z -> bool).
Definition pastAt (past : bool) (W : list Z) (j : nat) : bool := (past || existsb gap (firstn j W))%bool.
Definition cc0 (past : bool) (i : Z) (a : R) (W : list Z) (j : nat) : R :=
  match j with O => a | S _ => if onB then (if pastAt past W j then - (IZR n - 1) / IZR n else 1 / IZR n) else IZR (i - Z.of_nat j + 1) * 1 / (2 * IZR n) end%R.
Definition cc1 (past : bool) (i : Z) (W : list Z) (j : nat) : R :=
  (if Nat.eqb (S j) (length W) then (if onB then (IZR n - 2) / (2 * IZR n) else 0)
  else if onB then (if pastAt past W j then (IZR n - 1) / IZR n else -1 / IZR n) else - IZR (i - Z.of_nat j) * 1 / (2 * IZR n))%R.
Definition cc2 (c : R) (W : list Z) (j : nat) : R := (if Nat.eqb (S j) (length W) then 1 / 2 else match j with O => c | S _ => 0 end)%R.
Lemma entries_nth : forall fs past i a c face j f, nth_error (face :: fs) j = Some f ->
  nth_error (entries d n onB w gap past i a c face fs) j =
  Some (Entry f (Col (cc0 past i a (face :: fs) j) (cc1 past i (face :: fs) j) (cc2 c (face :: fs) j)) d w).
Proof.
  induction fs as [|f' fs IH]; intros past i a c face j f H.
  - destruct j as [|j]; [|destruct j; discriminate]. cbn in H. injection H as ->. reflexivity.
  - destruct j as [|j].
    + cbn in H. injection H as ->. cbn [entries nth_error]. cbv zeta. f_equal. f_equal. f_equal. cbn [cc1 length Nat.eqb]. unfold pastAt. cbn [firstn existsb]. rewrite orb_false_r. rewrite Z.sub_0_r. reflexivity.
    + cbn [nth_error] in H. cbn [entries nth_error]. cbv zeta. rewrite (IH _ _ _ _ _ _ _ H). f_equal. f_equal.
      assert (PA : onB = true -> forall k, pastAt (if onB then (past || gap face)%bool else past) (f' :: fs) k = pastAt past (face :: f' :: fs) (S k)).
      { intros Q k. rewrite Q. unfold pastAt. change (firstn (S k) (face :: f' :: fs)) with (face :: firstn k (f' :: fs)). cbn [existsb]. now rewrite orb_assoc. }
      f_equal.
      * unfold cc0. destruct j as [|j].
        -- destruct onB; [|f_equal; f_equal; f_equal; lia]. rewrite <- (PA eq_refl). unfold pastAt. cbn [firstn existsb]. now rewrite orb_false_r.
        -- destruct onB; [|f_equal; f_equal; f_equal; lia]. now rewrite <- (PA eq_refl).
      * unfold cc1. change (Nat.eqb (S (S j)) (length (face :: f' :: fs))) with (Nat.eqb (S j) (length (f' :: fs))). destruct (Nat.eqb (S j) (length (f' :: fs))); [reflexivity|].
        destruct onB; [|replace (i - Z.of_nat (S j)) with (i - 1 - Z.of_nat j) by lia; reflexivity]. now rewrite <- (PA eq_refl).
      * unfold cc2. change (Nat.eqb (S (S j)) (length (face :: f' :: fs))) with (Nat.eqb (S j) (length (f' :: fs))). destruct (Nat.eqb (S j) (length (f' :: fs))); [reflexivity|]. now destruct j.
Qed.
End Closed.

(** ---- rotating a fan ---- *)
Definition FF (son : Z -> nat -> Z) (l : list (selt * nat)) : list Z := flat_map (fun x => [face son x true; face son x false]) l.
Lemma FF_length son l : length (FF son l) = (2 * length l)%nat.
Proof. induction l; cbn; [reflexivity|]. unfold FF in IHl. rewrite IHl. lia. Qed.
Lemma FF_nth son : forall l q x, nth_error l q = Some x -> nth_error (FF son l) (2 * q) = Some (face son x true) /\ nth_error (FF son l) (S (2 * q)) = Some (face son x false).
Proof.
  induction l as [|y l IH]; intros [|q] x H; try discriminate.
  - cbn in H. injection H as ->. split; reflexivity.
  - cbn [nth_error] in H. replace (2 * S q)%nat with (S (S (2 * q))) by lia. cbn [FF flat_map app nth_error]. now apply IH.
Qed.
Lemma FF_in son l f : In f (FF son l) <-> exists x odd, In x l /\ f = face son x odd.
Proof.
  unfold FF. rewrite in_flat_map. split.
  - intros (x & I & [<-|[<-|[]]]); eauto.
  - intros (x & [] & I & ->); exists x; (split; [exact I|]); cbn; auto.
Qed.
(** consecutive elements of l2 ++ l1 are consecutive in the cycle l1 ++ l2 *)
Lemma rot_cyc (l1 l2 : list (selt * nat)) q x y : nth_error (l2 ++ l1) q = Some x -> nth_error (l2 ++ l1) (S q) = Some y -> cyc (l1 ++ l2) x y.
Proof.
  intros X Y. destruct (Nat.lt_ge_cases (S q) (length l2)) as [A|A].
  - rewrite nth_error_app1 in X, Y by lia. left. exists (length l1 + q)%nat. rewrite !nth_error_app2 by lia. split; [rewrite <- X|rewrite <- Y]; f_equal; lia.
  - destruct (Nat.eq_dec (S q) (length l2)) as [E|E].
    + rewrite nth_error_app1 in X by lia. rewrite nth_error_app2 in Y by lia. right. split.
      * rewrite nth_error_app2 by (rewrite app_length; lia). rewrite <- X. f_equal. rewrite app_length. lia.
      * replace (S q - length l2)%nat with 0%nat in Y by lia. destruct l1; [discriminate|exact Y].
    + rewrite nth_error_app2 in X, Y by lia. left. exists (q - length l2)%nat. assert (B : (S (q - length l2) < length l1)%nat). { assert (nth_error l1 (S q - length l2) <> None) by congruence. apply nth_error_Some in H. lia. }
      rewrite !nth_error_app1 by lia. split; [rewrite <- X|rewrite <- Y]; f_equal; lia.
Qed.
Lemma rot_wrap (l1 l2 : list (selt * nat)) x y : nth_error (l2 ++ l1) (length (l2 ++ l1) - 1) = Some x -> nth_error (l2 ++ l1) 0 = Some y -> l1 <> [] -> cyc (l1 ++ l2) x y.
Proof.
  intros X Y N. assert (L1 : (0 < length l1)%nat) by (destruct l1; [congruence|cbn; lia]). rewrite nth_error_app2 in X by (rewrite app_length; lia). rewrite app_length in X.
  destruct l2 as [|z l2].
  - cbn in X, Y. rewrite app_nil_r. right. rewrite Nat.sub_0_r in X. auto.
  - cbn in Y. injection Y as ->. left. exists (length l1 - 1)%nat. rewrite nth_error_app1 by lia. rewrite nth_error_app2 by lia.
    replace (length (y :: l2) + length l1 - 1 - length (y :: l2))%nat with (length l1 - 1)%nat in X by lia. split; [exact X|]. replace (S (length l1 - 1) - length l1)%nat with 0%nat by lia. reflexivity.
Qed.
