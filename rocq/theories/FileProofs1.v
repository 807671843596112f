(** Texts: lines, words, numbers. *)
From Coq Require Import List ZArith Bool Lia Ascii String DecimalString DecimalZ Decimal.
From Verif Require Import Base FileModel FileSpec.
Import ListNotations.
Set Implicit Arguments.
Unset Strict Implicit.
Local Open Scope Z_scope.

Lemma code_range c : 0 <= code c < 256.
Proof. unfold code. assert (H := N_ascii_bounded c). lia. Qed.
Lemma code_chr z : 0 <= z < 256 -> code (chr z) = z.
Proof. intros H. unfold code, chr. rewrite N_ascii_embedding by lia. lia. Qed.
Lemma chr_code c : chr (code c) = c.
Proof. unfold code, chr. rewrite N2Z.id. apply ascii_N_embedding. Qed.
Lemma code_inj a b : code a = code b -> a = b.
Proof. intros H. rewrite <- (chr_code a), <- (chr_code b), H. reflexivity. Qed.
Lemma code_nl : code nl = 10. Proof. reflexivity. Qed.
Lemma teq_refl a : teq a a = true.
Proof. unfold teq. destruct (list_eq_dec ascii_dec a a); congruence. Qed.
Lemma teq_neq a b : a <> b -> teq a b = false.
Proof. unfold teq. destruct (list_eq_dec ascii_dec a b); congruence. Qed.

Lemma readline_line l r : ~ In nl l -> readline (l ++ nl :: r) = (l ++ [nl], r).
Proof.
  induction l as [|c l IH]; intros H; cbn [app readline].
  - reflexivity.
  - assert (Ascii.eqb c nl = false) as ->. { apply Ascii.eqb_neq. intros ->. apply H. now left. }
    rewrite IH by (intros X; apply H; now right). reflexivity.
Qed.
Lemma rstrip_nonspace c l : isSpace (last l c) = false -> l <> [] -> rstrip l = l.
Proof.
  induction l as [|a l IH]; intros H N; [congruence|]. cbn [rstrip].
  destruct l as [|b l]. { cbn in H |- *. rewrite H. reflexivity. }
  rewrite IH; [reflexivity| exact H | discriminate].
Qed.
Lemma rstrip_app_space l c : isSpace c = true -> rstrip (l ++ [c]) = rstrip l.
Proof. intros H. induction l as [|a l IH]; cbn [app rstrip]; [rewrite H; reflexivity|]. rewrite IH. reflexivity. Qed.
Lemma utf8_ascii l : Forall (fun c => code c < 128) l -> utf8 l = true.
Proof.
  induction 1 as [|c l H _ IH]; [reflexivity|]. cbn [utf8]. destruct (Z.ltb_spec (code c) 128); [exact IH|lia].
Qed.
(** printable, no trailing blank *)
Definition neat (l : text) : Prop := Forall (fun c => 32 <= code c < 127) l /\ last l (chr 0) <> chr 32.
Lemma neat_ascii l : Forall (fun c => 32 <= code c < 127) l -> utf8 l = true.
Proof. intros H. apply utf8_ascii. eapply Forall_impl; [|exact H]. cbn. lia. Qed.
Lemma neat_nonl l : Forall (fun c => 32 <= code c < 127) l -> ~ In nl l.
Proof. intros H X. rewrite Forall_forall in H. specialize (H _ X). rewrite code_nl in H. lia. Qed.
Lemma isSpace_false c : 33 <= code c < 127 -> isSpace c = false.
Proof. intros H. unfold isSpace. apply orb_false_iff. split; [apply Z.eqb_neq; lia|]. apply andb_false_iff. right. apply Z.leb_gt. lia. Qed.
Lemma last_in {A} (l : list A) d : l <> [] -> In (last l d) l.
Proof. induction l as [|a l IH]; [congruence|]. intros _. destruct l as [|b l]; [now left|]. right. apply IH. discriminate. Qed.
Lemma neat_rstrip l : neat l -> rstrip l = l.
Proof.
  intros (H & L). destruct l as [|a l]; [reflexivity|].
  apply rstrip_nonspace with (c := chr 0); [|discriminate].
  assert (X : In (last (a :: l) (chr 0)) (a :: l)) by (apply last_in; discriminate).
  set (c := last (a :: l) (chr 0)) in *. rewrite Forall_forall in H. specialize (H _ X). apply isSpace_false.
  split; [|lia]. enough (code c <> 32) by lia. intros E. apply L. apply code_inj. rewrite E. reflexivity.
Qed.
Lemma getline_line l r : neat l -> getline (textLine l ++ r) = Ok (l, r).
Proof.
  intros H. unfold getline, textLine. rewrite <- app_assoc. cbn [app].
  change (chr 10) with nl. rewrite readline_line by apply neat_nonl, (proj1 H).
  cbn [fst snd]. rewrite rstrip_app_space by reflexivity. rewrite neat_rstrip by exact H. rewrite neat_ascii by apply (proj1 H). reflexivity.
Qed.
Lemma getline_empty : getline [] = Ok ([], []). Proof. reflexivity. Qed.

(** words *)
Definition wordOk (w : text) : Prop := w <> [] /\ Forall (fun c => 33 <= code c < 127) w.
Lemma wsp_false c : 33 <= code c < 127 -> wsp c = false.
Proof. intros H. unfold wsp. rewrite isSpace_false by exact H. cbn [orb]. apply andb_false_iff. right. apply Z.leb_gt. lia. Qed.
Lemma words_one w : wordOk w -> words w = [w].
Proof.
  intros (N & H). induction w as [|c w IH]; [congruence|]. inversion H as [|? ? Hc Hw]; subst. cbn [words].
  rewrite wsp_false by exact Hc. destruct w as [|d w]; [reflexivity|]. inversion Hw as [|? ? Hd _]; subst.
  rewrite wsp_false by exact Hd. rewrite IH; [reflexivity|discriminate|exact Hw].
Qed.
Lemma words_cons w r : wordOk w -> words (w ++ sp :: r) = w :: words r.
Proof.
  intros (N & H). induction w as [|c w IH]; [congruence|]. inversion H as [|? ? Hc Hw]; subst.
  destruct w as [|d w].
  - cbn [app]. change (words (c :: sp :: r)) with (if wsp c then words (sp :: r) else if wsp sp then [c] :: words (sp :: r) else match words (sp :: r) with w :: ws => (c :: w) :: ws | [] => [[c]] end).
    rewrite wsp_false by exact Hc. change (wsp sp) with true. cbn iota. reflexivity.
  - inversion Hw as [|? ? Hd _]; subst. specialize (IH ltac:(discriminate) Hw).
    change (words ((c :: d :: w) ++ sp :: r)) with (if wsp c then words ((d :: w) ++ sp :: r) else if wsp d then [c] :: words ((d :: w) ++ sp :: r) else match words ((d :: w) ++ sp :: r) with w :: ws => (c :: w) :: ws | [] => [[c]] end).
    rewrite (wsp_false Hc), (wsp_false Hd), IH. reflexivity.
Qed.
Lemma words_sentence ws : Forall wordOk ws -> words (sentence ws) = ws.
Proof.
  induction ws as [|w ws IH]; intros H; [reflexivity|]. inversion H as [|? ? Hw Hws]; subst.
  destruct ws as [|w' ws]; [apply words_one, Hw|]. change (sentence (w :: w' :: ws)) with (w ++ sp :: sentence (w' :: ws)).
  rewrite words_cons by exact Hw. rewrite IH by exact Hws. reflexivity.
Qed.
Lemma last_app {A} (a b : list A) d : b <> [] -> last (a ++ b) d = last b d.
Proof. intros N. induction a as [|x a IH]; [reflexivity|]. cbn [app]. destruct (a ++ b) eqn:E. { apply app_eq_nil in E as (_ & ->). congruence. } exact IH. Qed.
Lemma wordOk_neat w : wordOk w -> neat w.
Proof.
  intros (N & H). split. { eapply Forall_impl; [|exact H]. cbn. lia. }
  intros E. assert (X : In (last w (chr 0)) w) by (apply last_in, N). rewrite Forall_forall in H. specialize (H _ X). rewrite E in H. change (code (chr 32)) with 32 in H. lia.
Qed.
Lemma sentence_nil ws : Forall wordOk ws -> sentence ws = [] -> ws = [].
Proof. destruct ws as [|w [|w' ws]]; intros H E; [reflexivity| |]; inversion H as [|? ? (N & _) _]; subst; cbn in E; [congruence|]. destruct w; [congruence|discriminate]. Qed.
Lemma sentence_neat ws : Forall wordOk ws -> neat (sentence ws).
Proof.
  induction ws as [|w ws IH]; intros H. { split; [constructor|]. vm_compute. discriminate. }
  inversion H as [|? ? Hw Hws]; subst. destruct ws as [|w' ws]; [apply wordOk_neat, Hw|].
  change (sentence (w :: w' :: ws)) with (w ++ sp :: sentence (w' :: ws)).
  assert (N := wordOk_neat Hw). specialize (IH Hws). split.
  - apply Forall_app. split; [apply N|]. constructor; [|apply IH]. change (code sp) with 32. lia.
  - change (sp :: sentence (w' :: ws)) with ([sp] ++ sentence (w' :: ws)). rewrite app_assoc, last_app; [apply IH|].
    intros E. apply (sentence_nil Hws) in E. discriminate.
Qed.

(** integers in decimal notation *)
Lemma uint_chars u : Forall (fun c => 48 <= code c < 58) (str (NilEmpty.string_of_uint u)).
Proof. induction u; cbn; constructor; try (vm_compute; split; [discriminate|reflexivity]); assumption. Qed.
Lemma zstr_word z : wordOk (zstr z).
Proof.
  unfold zstr, NilZero.string_of_int, NilZero.string_of_uint.
  assert (A : forall u, wordOk (str match u with Nil => "0" | _ => NilEmpty.string_of_uint u end)).
  { intros u. assert (X := uint_chars u). split. { destruct u; discriminate. }
    destruct u; try (eapply Forall_impl; [|exact X]; cbn; lia). repeat constructor; vm_compute; try discriminate; reflexivity. }
  destruct (Z.to_int z) as [u|u]; [apply A|].
  destruct (A u) as (N & F). split; [discriminate|]. constructor; [vm_compute; split; [discriminate|reflexivity]|exact F].
Qed.
Lemma zstr_value z : intWord (zstr z) = Some z.
Proof.
  assert (S : forall s, string_of_list_ascii (str s) = s) by apply string_of_list_ascii_of_string.
  unfold intWord. destruct (zstr z) as [|c d] eqn:E. { destruct (zstr_word z) as (N & _). congruence. }
  assert (Ascii.eqb c "+"%char = false) as ->.
  { apply Ascii.eqb_neq. intros ->. unfold zstr, NilZero.string_of_int, NilZero.string_of_uint in E.
    destruct (Z.to_int z) as [u|u].
    - assert (X := uint_chars u). destruct u; cbn in E; try discriminate E; inversion E. 
    - discriminate E. }
  rewrite <- E. unfold zstr. rewrite S. assert (I : NilZero.int_of_string (NilZero.string_of_int (Z.to_int z)) = Some (Z.to_int z)).
  { apply NilZero.isi; destruct z; try discriminate.
    - cbn. assert (X := DecimalPos.Unsigned.to_uint_nonnil p). congruence.
    - cbn. assert (X := DecimalPos.Unsigned.to_uint_nonnil p). congruence. }
  rewrite I. cbn [option_map]. rewrite of_to. reflexivity.
Qed.
Lemma pyInt_zstr z : pyInt (zstr z) = Some z.
Proof. unfold pyInt. rewrite words_one by apply zstr_word. apply zstr_value. Qed.

(** integers as bytes *)
Lemma le4_ok z : int32 z -> le4 z = Ok (bytes4 z).
Proof.
  intros H. unfold int32 in H. unfold le4. assert ((- 2 ^ 31 <=? z) && (z <? 2 ^ 31) = true) as ->.
  { apply andb_true_iff. split; [apply Z.leb_le; lia|apply Z.ltb_lt; lia]. }
  unfold bytes4. set (u := z mod 2 ^ 32). assert (U : 0 <= u < 2 ^ 32) by (apply Z.mod_pos_bound; reflexivity).
  cbn [map]. change (256 ^ 0) with 1. change (256 ^ 1) with 256. change (256 ^ 2) with 65536. change (256 ^ 3) with 16777216.
  rewrite Z.div_1_r. rewrite (Z.mod_small (u / 16777216)). { reflexivity. }
  split; [apply Z.div_pos; lia|]. apply Z.div_lt_upper_bound; lia.
Qed.
Lemma bytes4_length z : List.length (bytes4 z) = 4%nat. Proof. reflexivity. Qed.
Lemma int4_bytes4 z : int32 z -> int4 (bytes4 z) = Ok z.
Proof.
  intros H. unfold int32 in H. unfold bytes4. set (u := z mod 2 ^ 32).
  assert (U : 0 <= u < 2 ^ 32) by (apply Z.mod_pos_bound; reflexivity).
  cbn [map int4]. change (256 ^ 0) with 1. change (256 ^ 1) with 256. change (256 ^ 2) with 65536. change (256 ^ 3) with 16777216.
  rewrite !code_chr by (apply Z.mod_pos_bound; reflexivity).
  assert (E : u / 1 mod 256 + 256 * (u / 256 mod 256) + 65536 * (u / 65536 mod 256) + 16777216 * (u / 16777216 mod 256) = u).
  { rewrite Z.div_1_r. change 65536 with (256 * 256) at 2. change 16777216 with (256 * 256 * 256) at 2. rewrite <- !Z.div_div by lia.
    assert (A := Z.div_mod u 256 ltac:(lia)). assert (B := Z.div_mod (u / 256) 256 ltac:(lia)). assert (C := Z.div_mod (u / 256 / 256) 256 ltac:(lia)).
    assert (D : u / 256 / 256 / 256 < 256). { rewrite !Z.div_div by lia. apply Z.div_lt_upper_bound; lia. }
    assert (D0 : 0 <= u / 256 / 256 / 256) by (repeat apply Z.div_pos; lia).
    rewrite (Z.mod_small (u / 256 / 256 / 256)) by lia. lia. }
  rewrite E. f_equal. unfold u. destruct (Z.ltb_spec (z mod 2 ^ 32) (2 ^ 31)) as [L|L].
  - destruct (Z.leb_spec 0 z) as [P|P]; [apply Z.mod_small; lia|].
    exfalso. assert (z mod 2 ^ 32 = z + 2 ^ 32). { symmetry. apply Z.mod_unique with (q := -1); lia. } lia.
  - destruct (Z.leb_spec 0 z) as [P|P]. { rewrite Z.mod_small in L by lia. lia. }
    assert (z mod 2 ^ 32 = z + 2 ^ 32). { symmetry. apply Z.mod_unique with (q := -1); lia. } lia.
Qed.
Lemma readInt_bytes z r : int32 z -> readInt (bytes4 z ++ r) = Ok (z, r).
Proof.
  intros H. unfold readInt, read. change 4%nat with (List.length (bytes4 z)). rewrite firstn_app, skipn_app, Nat.sub_diag, firstn_all, skipn_all. cbn [firstn skipn]. rewrite app_nil_r.
  cbn [app]. rewrite int4_bytes4 by exact H. reflexivity.
Qed.
Lemma readInts_bytes l r : Forall int32 l -> readInts (List.length l) (concat (map bytes4 l) ++ r) = Ok (l, r).
Proof.
  induction 1 as [|z l H _ IH]; [reflexivity|]. cbn [List.length readInts map concat]. rewrite <- app_assoc, readInt_bytes by exact H.
  cbn [bind]. rewrite IH. reflexivity.
Qed.
