(** Writing Gmsh files. *)
From Coq Require Import List ZArith Bool Lia Ascii String.
From Verif Require Import Base FileModel FileSpec FileProofs1 FileProofs2 FileProofs3.
Import ListNotations.
Set Implicit Arguments.
Unset Strict Implicit.
Local Open Scope Z_scope.

Lemma line_textLine l : line l = textLine l. Proof. reflexivity. Qed.
Lemma spaced_sentence ws : spaced ws = sentence ws.
Proof. induction ws as [|w ws IH]; [reflexivity|]. destruct ws as [|w' ws]; [reflexivity|]. cbn [spaced sentence] in *. rewrite IH. reflexivity. Qed.
Lemma mapM_enum {A B} (f : nat * A -> res B) (l : list A) (r : list B) k : List.length r = List.length l ->
  (forall i x y, nth_error l i = Some x -> nth_error r i = Some y -> f ((k + i)%nat, x) = Ok y) -> mapM f (enum k l) = Ok r.
Proof.
  revert r k. induction l as [|x l IH]; intros [|y r] k L H; try discriminate L; [reflexivity|]. cbn [enum mapM].
  assert (E := H 0%nat x y eq_refl eq_refl). rewrite Nat.add_0_r in E. rewrite E. cbn [bind].
  rewrite (IH r (S k)); [reflexivity|cbn in L; lia|]. intros i a b Ka Kb. specialize (H (S i) a b Ka Kb). rewrite Nat.add_succ_r in H. exact H.
Qed.
Lemma nth_combine {A B} (a : list A) (b : list B) i x : nth_error (combine a b) i = Some x -> nth_error a i = Some (fst x) /\ nth_error b i = Some (snd x).
Proof.
  revert b i. induction a as [|u a IH]; intros [|v b] [|i] H; try discriminate H; cbn [combine nth_error] in *; [inversion H; split; reflexivity|apply IH, H].
Qed.
Lemma nth_map_inv {A B} (f : A -> B) l i y : nth_error (map f l) i = Some y -> exists x, nth_error l i = Some x /\ y = f x.
Proof. revert i. induction l as [|a l IH]; intros [|i] H; try discriminate H; cbn in *; [inversion H; exists a; split; reflexivity|apply IH, H]. Qed.
Lemma nth_seq k n i x : nth_error (seq k n) i = Some x -> x = (k + i)%nat.
Proof. intros H. assert (L : (i < n)%nat) by (rewrite <- (seq_length n k); apply nth_error_Some; congruence). apply nth_error_nth with (d := 0%nat) in H. rewrite seq_nth in H by exact L. congruence. Qed.
Lemma idOf_nth ids i z : nth_error ids i = Some z -> idOf ids (Z.of_nat i) = Ok z.
Proof. intros H. unfold idOf. rewrite (pyget_pos H). reflexivity. Qed.

Section Io.
Variable io : floatIO.
Section Bin.
Variable binary : bool.
Definition ids32 (ids : list Z) : Prop := binary = true -> Forall int32 ids.
Definition blockText (b : block io) : text := if binary then blockBytes b else textLines (blockLines b).
Definition valuesText (v : Z * list (V io)) : text :=
  if binary then bytes4 (fst v) ++ concat (map (pack8 io) (snd v)) else textLine (sentence (zstr (fst v) :: map (fstr io) (snd v))).
Lemma ids32_nth ids i z : ids32 ids -> binary = true -> nth_error ids i = Some z -> int32 z.
Proof. intros H B K. specialize (H B). rewrite Forall_forall in H. apply H. eapply nth_error_In, K. Qed.
Lemma writeArray_ok v ids name a t k : ids32 ids -> List.length (a_points a) = List.length ids ->
  writeArray binary v ids name a t k = Ok (blockText (Block v name t (Z.of_nat k) (a_comp a) (combine ids (a_points a)))).
Proof.
  intros H L. unfold writeArray. rewrite (@mapM_enum _ _ _ _ (map valuesText (combine ids (a_points a)))).
  - cbn [bind]. f_equal. unfold blockText, blockBytes, blockLines, blockHead, blockEnd. cbn [b_at_nodes b_name b_time b_step b_components b_values].
    rewrite combine_length, <- L, Nat.min_id. destruct binary eqn:B.
    + assert (VT : map valuesText (combine ids (a_points a)) = map (fun v => bytes4 (fst v) ++ concat (map (pack8 io) (snd v))) (combine ids (a_points a))).
      { apply map_ext. intros x. unfold valuesText. rewrite B. reflexivity. }
      rewrite VT. unfold textLines. cbn [map concat]. rewrite <- !app_assoc. reflexivity.
    + assert (VT : concat (map valuesText (combine ids (a_points a))) = textLines (map (fun v => sentence (zstr (fst v) :: map (fstr io) (snd v))) (combine ids (a_points a)))).
      { unfold textLines. rewrite map_map. f_equal. apply map_ext. intros x. unfold valuesText. rewrite B. reflexivity. }
      rewrite VT, !textLines_app. set (X := textLines (map _ _)). unfold textLines. cbn [map concat]. rewrite !app_nil_r, <- !app_assoc. reflexivity.
  - rewrite map_length, combine_length. lia.
  - intros i x y Kx Ky. apply nth_map_inv in Ky as (q & Kq & ->). apply nth_combine in Kq as (K1 & K2). assert (x = snd q) by congruence. subst x.
    unfold writeValues. cbn [Nat.add fst snd]. rewrite (idOf_nth K1). cbn [bind]. unfold valuesText. destruct binary eqn:B.
    + rewrite le4_ok; [reflexivity|]. apply (ids32_nth H B K1).
    + rewrite spaced_sentence. reflexivity.
Qed.
Lemma writeArrays_ok v ids times name l : ids32 ids -> (List.length l <= List.length times)%nat -> (forall a, In a l -> List.length (a_points a) = List.length ids) ->
  writeArrays binary v ids times name l = Ok (concat (map blockText (arrayBlocks v ids times name l))).
Proof.
  intros H Lt L. unfold writeArrays. rewrite (@mapM_enum _ _ _ _ (map blockText (arrayBlocks v ids times name l))).
  - reflexivity.
  - unfold arrayBlocks. rewrite !map_length, !combine_length, seq_length. lia.
  - intros i x y Kx Ky. apply nth_map_inv in Ky as (q & Kq & ->). unfold arrayBlocks in Kq. apply nth_map_inv in Kq as ((k & (t & a)) & Kk & ->).
    apply nth_combine in Kk as (K1 & K2). apply nth_combine in K2 as (K2 & K3). cbn [fst snd] in *. apply nth_seq in K1. subst k. assert (x = a) by congruence. subst x.
    cbn [Nat.add]. rewrite K2. cbn [get bind]. apply writeArray_ok; [exact H|]. apply L. eapply nth_error_In, K3.
Qed.
Lemma rstrip_description d : d = [] \/ 32 < code (last d (chr 0)) -> rstrip d = d.
Proof.
  intros [->|H]; [reflexivity|]. destruct d as [|c d]; [reflexivity|]. apply rstrip_nonspace with (c := chr 0); [|discriminate].
  unfold isSpace. apply orb_false_iff. split; [apply Z.eqb_neq; lia|]. apply andb_false_iff. right. apply Z.leb_gt. lia.
Qed.
Lemma writeData_ok v ids times d : ids32 ids -> dataOk (List.length ids) times d ->
  writeData binary v ids times d = Ok (concat (map blockText (dataBlocks v ids times d))).
Proof.
  intros H (D1 & D2 & D3 & D4). unfold writeData, dataBlocks. rewrite rstrip_description by exact D4. destruct (d_imag d) as [im|] eqn:I.
  - specialize (D2 im eq_refl). rewrite writeArrays_ok; [|exact H|exact D1|intros a Ha; apply D3, in_app_iff; now left]. cbn [bind].
    destruct (Nat.ltb_spec (List.length im) (List.length (d_real d))); [lia|]. rewrite firstn_all2 by lia.
    rewrite writeArrays_ok; [|exact H|lia|intros a Ha; apply D3, in_app_iff; now right]. cbn [bind]. rewrite map_app, concat_app. reflexivity.
  - apply writeArrays_ok; [exact H|exact D1|intros a Ha; apply D3, in_app_iff; now left].
Qed.
Lemma writeDatas_ok v ids times ds : ids32 ids -> (forall d, In d ds -> dataOk (List.length ids) times d) ->
  mapM (writeData binary v ids times) ds = Ok (map (fun d => concat (map blockText (dataBlocks v ids times d))) ds).
Proof. intros H D. apply mapM_ok. intros d Hd. apply writeData_ok; [exact H|apply D, Hd]. Qed.

Definition nodeText (n : Z * point io) : text := if binary then nodeBytes n else textLine (nodeLine n).
Definition elementText (e : element) : text := if binary then elementBytes e else textLine (elementLine e).
Lemma writeNodes_ok vids vs : ids32 vids -> List.length vids = List.length vs ->
  mapM (fun p => id <-- idOf vids (Z.of_nat (fst p)) ;;; writeNode binary id (snd p)) (enum 0 vs) = Ok (map nodeText (combine vids vs)).
Proof.
  intros H L. apply mapM_enum. { rewrite map_length, combine_length. lia. }
  intros i x y Kx Ky. apply nth_map_inv in Ky as ((id & ((a & b) & c)) & Kq & ->). apply nth_combine in Kq as (K1 & K2). cbn [fst snd Nat.add] in *.
  rewrite (idOf_nth K1). cbn [bind]. assert (x = (a, b, c)) by congruence. subst x. unfold writeNode, nodeText, nodeBytes, nodeLine. destruct binary eqn:B.
  - rewrite le4_ok; [reflexivity|]. apply (ids32_nth H B K1).
  - rewrite spaced_sentence. reflexivity.
Qed.
Lemma idOf_range ids v : 0 <= v < Z.of_nat (List.length ids) -> idOf ids v = Ok (nth (Z.to_nat v) ids 0).
Proof. intros H. replace v with (Z.of_nat (Z.to_nat v)) at 1 by lia. apply idOf_nth. apply nth_error_nth'. lia. Qed.
Lemma writeElements_ok vids eids doms es : ids32 vids -> ids32 eids -> ids32 doms -> List.length eids = List.length es -> List.length doms = List.length es ->
  (forall vs, In vs es -> List.length vs = 3%nat /\ forall v, In v vs -> 0 <= v < Z.of_nat (List.length vids)) ->
  mapM (fun p => id <-- idOf eids (Z.of_nat (fst p)) ;;; dom <-- idOf doms (Z.of_nat (fst p)) ;;; writeElement binary vids id dom (snd p)) (enum 0 es) =
  Ok (map elementText (map (fun x => let '(id, (dom, vs)) := x in Element id 2 [dom; 0] (map (fun v => nth (Z.to_nat v) vids 0) vs)) (combine eids (combine doms es)))).
Proof.
  intros H1 H2 H3 L1 L2 R. apply mapM_enum. { rewrite !map_length, !combine_length. lia. }
  intros i x y Kx Ky. apply nth_map_inv in Ky as (e & Ke & ->). apply nth_map_inv in Ke as ((id & (dom & vs)) & Kq & ->).
  apply nth_combine in Kq as (K1 & K2). apply nth_combine in K2 as (K2 & K3). cbn [fst snd Nat.add] in *. assert (x = vs) by congruence. subst x.
  rewrite (idOf_nth K1), (idOf_nth K2). cbn [bind]. destruct (R vs (nth_error_In _ _ K3)) as (L & Rv).
  destruct vs as [|a [|b [|c [|? ?]]]]; try discriminate L. unfold writeElement. rewrite !idOf_range by (apply Rv; cbn; tauto). cbn [bind]. 
  unfold elementText, elementBytes, elementLine. cbn [e_id e_type e_tags e_nodes map List.length app]. destruct binary eqn:B.
  - assert (N : forall v, In v [a; b; c] -> int32 (nth (Z.to_nat v) vids 0)).
    { intros v Hv. specialize (H1 B). rewrite Forall_forall in H1. apply H1. apply nth_In. specialize (Rv v Hv). lia. }
    assert (I1 := ids32_nth H2 B K1). assert (I2 := ids32_nth H3 B K2). assert (I0 : int32 0) by (unfold int32; lia).
    cbn [mapM]. rewrite (le4_ok I1), (le4_ok I2), (le4_ok I0), !le4_ok by (apply N; cbn; tauto). reflexivity.
  - rewrite spaced_sentence. reflexivity.
Qed.
End Bin.

Lemma concat_lines {A} (f : A -> text) l : concat (map (fun x => textLine (f x)) l) = textLines (map f l).
Proof. unfold textLines. rewrite map_map. reflexivity. Qed.
Lemma concat_concat_map {A B} (f : A -> list B) (g : B -> text) l : concat (map (fun d => concat (map g (f d))) l) = concat (map g (concat (map f l))).
Proof. induction l as [|a l IH]; [reflexivity|]. cbn [map concat]. rewrite map_app, concat_app, IH. reflexivity. Qed.

Lemma writeFile_ascii (s : dataset io) vids eids : setOk s vids eids ->
  writeFile false s vids eids = Ok (asciiFile (setNodes s vids) (setElements s vids eids) [] [] (concat (map (@blockLines io) (setBlocks s vids eids)))).
Proof.
  intros [O1 O2 O3 O4 O5 O6]. assert (I : forall l, ids32 false l) by (intros l X; discriminate X).
  unfold writeFile. rewrite writeNodes_ok by (apply I || exact O1). cbn [bind]. rewrite writeElements_ok by (apply I || (symmetry; assumption) || assumption). cbn [bind].
  rewrite !writeDatas_ok by (apply I || assumption). cbn [bind]. rewrite le4_ok by (unfold int32; lia). cbn [bind]. f_equal.
  unfold asciiFile, setNodes, setElements. rewrite combine_length, O1, Nat.min_id, map_length, !combine_length, O2, O3, !Nat.min_id.
  set (ns := combine vids (g_vertices (s_grid s))). set (es := map _ (combine eids (combine _ _))).
  unfold nodeText, elementText, blockText. rewrite !concat_lines, !concat_concat_map.
  rewrite !textLines_app. unfold setBlocks. rewrite map_app, concat_app, textLines_app.
  assert (T : forall bs : list (block io), concat (map (fun b => textLines (blockLines b)) bs) = textLines (concat (map (@blockLines io) bs))).
  { induction bs as [|b bs IH]; [reflexivity|]. cbn [map concat]. rewrite textLines_app, IH. reflexivity. }
  rewrite !T. clear T I. generalize (textLines (map (@nodeLine io) ns)). generalize (textLines (map elementLine es)).
  match goal with |- context [textLines (concat (map ?f ?x))] => generalize (textLines (concat (map f x))) end.
  match goal with |- context [textLines (concat (map ?f ?x))] => generalize (textLines (concat (map f x))) end.
  intros t1 t2 t3 t4. unfold textLines. cbn [map concat app]. rewrite !app_nil_r, <- !app_assoc. reflexivity.
Qed.
Lemma writeFile_binary (s : dataset io) vids eids : setOk s vids eids -> Forall int32 vids -> Forall int32 eids -> Forall int32 (g_domain_indices (s_grid s)) ->
  int32 (Z.of_nat (List.length eids)) ->
  writeFile true s vids eids = Ok (binaryFile (setNodes s vids) [Group 2 2 (setElements s vids eids)] [] [] (concat (map (@blockBytes io) (setBlocks s vids eids)))).
Proof.
  intros [O1 O2 O3 O4 O5 O6] I1 I2 I3 I4. assert (J1 : ids32 true vids) by (intros _; exact I1). assert (J2 : ids32 true eids) by (intros _; exact I2). assert (J3 : ids32 true (g_domain_indices (s_grid s))) by (intros _; exact I3).
  unfold writeFile. rewrite writeNodes_ok by assumption. cbn [bind]. rewrite writeElements_ok by (assumption || (symmetry; assumption)). cbn [bind].
  rewrite !writeDatas_ok by assumption. cbn [mapM]. rewrite O2 in I4. rewrite !le4_ok by (exact I4 || (unfold int32; lia)). cbn [bind]. f_equal.
  unfold binaryFile, elementsOf, groupBytes, setNodes, setElements. cbn [map concat g_members g_type g_ntags]. rewrite !app_nil_r. rewrite combine_length, O1, Nat.min_id, map_length, !combine_length, O2, O3, !Nat.min_id.
  set (ns := combine vids (g_vertices (s_grid s))). set (es := map _ (combine eids (combine _ _))).
  unfold nodeText, elementText, blockText. rewrite !concat_concat_map. unfold setBlocks. rewrite map_app, concat_app.
  change (Z.of_nat 2) with 2. change (fun n : Z * point io => nodeBytes n) with (@nodeBytes io). change (fun e => elementBytes e) with elementBytes.
  change (fun b : block io => blockBytes b) with (@blockBytes io). generalize (concat (map (@nodeBytes io) ns)). generalize (concat (map elementBytes es)).
  match goal with |- context [concat (map ?f (concat ?x))] => generalize (concat (map f (concat x))) end.
  match goal with |- context [concat (map ?f (concat ?x))] => generalize (concat (map f (concat x))) end.
  intros t1 t2 t3 t4. unfold textLines. cbn [map concat]. unfold line, textLine. rewrite ?app_nil_r. rewrite <- ?app_assoc. reflexivity.
Qed.
End Io.
