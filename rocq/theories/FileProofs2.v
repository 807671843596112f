(** Reading well-formed Gmsh files: the sections. *)
From Coq Require Import List ZArith Bool Lia Ascii String.
From Verif Require Import Base FileModel FileSpec FileProofs1.
Import ListNotations.
Set Implicit Arguments.
Unset Strict Implicit.
Local Open Scope Z_scope.

Lemma textLines_cons l ls r : textLines (l :: ls) ++ r = textLine l ++ textLines ls ++ r.
Proof. unfold textLines. cbn [map concat]. rewrite app_assoc. reflexivity. Qed.
Lemma textLines_app a b : textLines (a ++ b) = textLines a ++ textLines b.
Proof. unfold textLines. rewrite map_app, concat_app. reflexivity. Qed.
Lemma getline_lines l ls r : neat l -> getline (textLines (l :: ls) ++ r) = Ok (l, textLines ls ++ r).
Proof. intros H. rewrite textLines_cons. apply getline_line, H. Qed.
Lemma textLines_length ls : (List.length ls <= List.length (textLines ls))%nat.
Proof. induction ls as [|l ls IH]; [apply le_n|]. unfold textLines in *. cbn [map concat List.length]. rewrite app_length. change (textLine l) with (l ++ [chr 10]). rewrite app_length. cbn [List.length]. lia. Qed.

Lemma pyget_pos {A} (l : list A) k a : nth_error l k = Some a -> pyget l (Z.of_nat k) = Some a.
Proof.
  intros H. assert (L : (k < List.length l)%nat) by (apply nth_error_Some; congruence). unfold pyget.
  assert ((0 <=? Z.of_nat k) && (Z.of_nat k <? Z.of_nat (List.length l)) = true) as ->. { apply andb_true_iff. split; [apply Z.leb_le|apply Z.ltb_lt]; lia. }
  rewrite Nat2Z.id. exact H.
Qed.
Lemma pyget_neg {A} (l : list A) k a : (S k <= List.length l)%nat -> nth_error l (List.length l - S k) = Some a -> pyget l (- Z.of_nat (S k)) = Some a.
Proof.
  intros L H. unfold pyget. assert (0 <=? - Z.of_nat (S k) = false) as -> by (apply Z.leb_gt; lia). cbn [andb].
  assert ((- Z.of_nat (List.length l) <=? - Z.of_nat (S k)) && (- Z.of_nat (S k) <? 0) = true) as ->. { apply andb_true_iff. split; [apply Z.leb_le|apply Z.ltb_lt]; lia. }
  replace (Z.to_nat (Z.of_nat (List.length l) + - Z.of_nat (S k))) with (List.length l - S k)%nat by lia. exact H.
Qed.

Lemma neat_str s : forallb (fun c => (33 <=? code c) && (code c <? 127)) (str s) = true -> str s <> [] -> neat (str s).
Proof.
  intros H N. apply wordOk_neat. split; [exact N|]. rewrite forallb_forall in H. apply Forall_forall. intros c I. specialize (H _ I).
  apply andb_true_iff in H as (A & B). apply Z.leb_le in A. apply Z.ltb_lt in B. lia.
Qed.
Ltac nstr := apply neat_str; [reflexivity|discriminate].

Section Io.
Variables (io : floatIO) (rnd : V io -> V io).
Hypothesis F : floatsOk rnd.

Lemma fstr_word x : wordOk (fstr io x).
Proof. destruct (proj1 F x) as (A & B & _ & _). split; assumption. Qed.
Lemma fval_fstr x : fval io (fstr io x) = Some (rnd x).
Proof. apply (proj1 F x). Qed.
Lemma nodeWords i x y z : Forall wordOk [zstr i; fstr io x; fstr io y; fstr io z].
Proof. repeat constructor; first [apply zstr_word|apply fstr_word]. Qed.
Lemma nodeLine_neat (n : Z * point io) : neat (@nodeLine io n).
Proof. destruct n as (i & ((x & y) & z)). apply sentence_neat, nodeWords. Qed.
Lemma readVertex_node (n : Z * point io) : readVertex io (@nodeLine io n) = Ok (@roundNode io rnd n).
Proof.
  destruct n as (i & ((x & y) & z)). unfold readVertex, nodeLine. rewrite words_sentence by apply nodeWords.
  rewrite zstr_value, !fval_fstr. reflexivity.
Qed.
Lemma nodeLine_end (n : Z * point io) : teq (@nodeLine io n) (str "$EndNodes") = false.
Proof.
  apply teq_neq. intros E. apply (f_equal words) in E. destruct n as (i & ((x & y) & z)). unfold nodeLine in E.
  rewrite words_sentence in E by apply nodeWords. discriminate E.
Qed.
Lemma roundNode_id (n : Z * point io) : fst (@roundNode io rnd n) = fst n.
Proof. destruct n as (i & ((x & y) & z)). reflexivity. Qed.
Lemma readVertices_ok ns n r : Forall (fun n : Z * point io => uint32 (fst n)) (n :: ns) ->
  readVertices io (List.length (n :: ns)) (@nodeLine io n) (textLines (map (@nodeLine io) ns ++ [str "$EndNodes"]) ++ r) =
  Ok (map (@roundNode io rnd) (n :: ns), (str "$EndNodes", r)).
Proof.
  revert n. induction ns as [|m ns IH]; intros n H; inversion H as [|? ? Hn Hns]; subst.
  - cbn [List.length readVertices]. rewrite nodeLine_end, readVertex_node. cbn [bind].
    destruct (@roundNode io rnd n) as (i & p) eqn:E. cbn [map app]. rewrite getline_lines by nstr. cbn [bind].
    assert (u32 i = i) as ->. { assert (X := roundNode_id n). rewrite E in X. cbn in X. subst i. apply Z.mod_small, Hn. }
    rewrite E. reflexivity.
  - cbn [List.length readVertices map app] in *. rewrite nodeLine_end, readVertex_node. cbn [bind].
    destruct (@roundNode io rnd n) as (i & p) eqn:E. rewrite getline_lines by apply nodeLine_neat. cbn [bind].
    rewrite (IH m Hns). cbn [bind]. 
    assert (u32 i = i) as ->. { assert (X := roundNode_id n). rewrite E in X. cbn in X. subst i. apply Z.mod_small, Hn. }
    reflexivity.
Qed.

(** elements *)
Definition triangleData (t : element) : triangle := (e_id t, e_nodes t, hd 0 (e_tags t)).
Lemma elementWords e : Forall wordOk ([zstr (e_id e); zstr (e_type e); zstr (Z.of_nat (List.length (e_tags e)))] ++ map zstr (e_tags e) ++ map zstr (e_nodes e)).
Proof. apply Forall_app. split; [repeat constructor; apply zstr_word|]. apply Forall_app. split; apply Forall_forall; intros w I; apply in_map_iff in I as (z & <- & _); apply zstr_word. Qed.
Lemma elementLine_neat e : neat (elementLine e).
Proof. apply sentence_neat, elementWords. Qed.
Lemma elementLine_end e : teq (elementLine e) (str "$EndElements") = false.
Proof.
  apply teq_neq. intros E. apply (f_equal words) in E. unfold elementLine in E.
  rewrite words_sentence in E by apply elementWords. discriminate E.
Qed.
Lemma tokenInt_pos t k z : nth_error t k = Some (zstr z) -> tokenInt t (Z.of_nat k) = Ok z.
Proof. intros H. unfold tokenInt. rewrite (pyget_pos H). cbn [get bind]. rewrite zstr_value. reflexivity. Qed.
Lemma tokenInt_neg t k z : (S k <= List.length t)%nat -> nth_error t (List.length t - S k) = Some (zstr z) -> tokenInt t (- Z.of_nat (S k)) = Ok z.
Proof. intros L H. unfold tokenInt. rewrite (pyget_neg L H). cbn [get bind]. rewrite zstr_value. reflexivity. Qed.
Lemma readElement_ok e : (e_type e = 2 -> triangleForm e) ->
  readElement (elementLine e) = Ok (if e_type e =? 2 then Some (triangleData e) else None).
Proof.
  intros H. unfold readElement, elementLine. rewrite words_sentence by apply elementWords.
  set (t := [zstr (e_id e); zstr (e_type e); zstr (Z.of_nat (List.length (e_tags e)))] ++ map zstr (e_tags e) ++ map zstr (e_nodes e)).
  assert (T0 : tokenInt t 0 = Ok (e_id e)) by (apply (@tokenInt_pos t 0); reflexivity).
  assert (T1 : tokenInt t 1 = Ok (e_type e)) by (apply (@tokenInt_pos t 1); reflexivity).
  rewrite T0, T1. cbn [bind]. destruct (Z.eqb_spec (e_type e) 2) as [E|E]; cbn [negb]; [|reflexivity].
  destruct (H E) as (_ & (tag & tags & Et & _) & L).
  destruct (e_nodes e) as [|a [|b [|c [|? ?]]]] eqn:En; try discriminate L.
  assert (T3 : tokenInt t 3 = Ok tag). { apply (@tokenInt_pos t 3). unfold t. rewrite Et. reflexivity. }
  set (q := [zstr (e_id e); zstr (e_type e); zstr (Z.of_nat (List.length (e_tags e)))] ++ map zstr (e_tags e)).
  assert (Eq : t = q ++ [zstr a; zstr b; zstr c]). { unfold t, q. rewrite app_assoc. reflexivity. }
  assert (Lt : List.length t = (List.length q + 3)%nat) by (rewrite Eq, app_length; reflexivity).
  assert (N : forall k, nth_error t (List.length q + k) = nth_error [zstr a; zstr b; zstr c] k).
  { intros k. rewrite Eq, nth_error_app2 by lia. f_equal. lia. }
  assert (T4 : tokenInt t (-1) = Ok c). { apply (@tokenInt_neg t 0); [lia|]. rewrite Lt. replace (List.length q + 3 - 1)%nat with (List.length q + 2)%nat by lia. rewrite N. reflexivity. }
  assert (T5 : tokenInt t (-2) = Ok b). { apply (@tokenInt_neg t 1); [lia|]. rewrite Lt. replace (List.length q + 3 - 2)%nat with (List.length q + 1)%nat by lia. rewrite N. reflexivity. }
  assert (T6 : tokenInt t (-3) = Ok a). { apply (@tokenInt_neg t 2); [lia|]. rewrite Lt. replace (List.length q + 3 - 3)%nat with (List.length q + 0)%nat by lia. rewrite N. reflexivity. }
  rewrite T3, T4, T5, T6. cbn [bind]. unfold triangleData. rewrite Et, En. reflexivity.
Qed.
Lemma readElements_ok es e r : Forall (fun e => e_type e = 2 -> triangleForm e) (e :: es) ->
  readElements (List.length (e :: es)) (elementLine e) (textLines (map elementLine es ++ [str "$EndElements"]) ++ r) =
  Ok (map triangleData (triangles (e :: es)), (str "$EndElements", r)).
Proof.
  revert e. induction es as [|d es IH]; intros e H; inversion H as [|? ? He Hes]; subst.
  - cbn [List.length readElements]. rewrite elementLine_end, (readElement_ok He). cbn [bind map app].
    rewrite getline_lines by nstr. cbn [bind triangles filter]. destruct (e_type e =? 2); reflexivity.
  - cbn [List.length readElements map app] in *. rewrite elementLine_end, (readElement_ok He). cbn [bind].
    rewrite getline_lines by apply elementLine_neat. cbn [bind]. rewrite (IH d Hes). cbn [bind]. unfold triangles. cbn [filter]. destruct (e_type e =? 2); reflexivity.
Qed.

Lemma readNodes_ascii st (nodes : list (Z * point io)) r : p_binary st = false -> nodes <> [] -> numbered nodes ->
  readNodes st (textLines ([zstr (Z.of_nat (List.length nodes))] ++ map (@nodeLine io) nodes ++ [str "$EndNodes"]) ++ r) =
  Ok (Parsed (Some (map (@roundNode io rnd) nodes)) (p_elems st) false (p_size st), r).
Proof.
  intros B N (L & H). destruct nodes as [|n ns]; [congruence|]. unfold readNodes. cbn [app map].
  rewrite getline_lines by apply wordOk_neat, zstr_word. cbn [bind]. rewrite pyInt_zstr. cbn [get bind].
  destruct (Z.ltb_spec (Z.of_nat (List.length (n :: ns))) 0); [lia|]. rewrite B. rewrite getline_lines by apply nodeLine_neat. cbn [bind].
  rewrite Nat2Z.id. rewrite readVertices_ok.
  - cbn [bind]. rewrite teq_refl. reflexivity.
  - apply Forall_forall. intros m I. apply In_nth_error in I as (k & K). assert (X := H k m K).
    assert (k < List.length (n :: ns))%nat by (apply nth_error_Some; congruence). unfold uint32. lia.
Qed.
Lemma readElems_ascii st es r : p_binary st = false -> (forall t, In t (triangles es) -> triangleForm t) ->
  readElems st (textLines ([zstr (Z.of_nat (List.length es))] ++ map elementLine es ++ [str "$EndElements"]) ++ r) =
  Ok (@Parsed io (p_nodes st) (Some (map triangleData (triangles es))) false (p_size st), r).
Proof.
  intros B H. unfold readElems. cbn [app map]. rewrite getline_lines by apply wordOk_neat, zstr_word. cbn [bind]. rewrite pyInt_zstr. cbn [get bind].
  rewrite B. destruct es as [|e es].
  - cbn [map app List.length]. rewrite getline_lines by nstr. reflexivity.
  - cbn [map app]. rewrite getline_lines by apply elementLine_neat. cbn [bind].
    destruct (Z.leb_spec (Z.of_nat (List.length (e :: es))) 0); [cbn in *; lia|]. rewrite Nat2Z.id.
    rewrite readElements_ok.
    + cbn [bind]. rewrite teq_refl. reflexivity.
    + apply Forall_forall. intros x I E. apply H. apply filter_In. split; [exact I|]. apply Z.eqb_eq, E.
Qed.

(** binary sections *)
Lemma app_firstn {A} (a b : list A) n : List.length a = n -> firstn n (a ++ b) = a.
Proof. intros <-. rewrite firstn_app, Nat.sub_diag, firstn_all. cbn. apply app_nil_r. Qed.
Lemma app_skipn {A} (a b : list A) n : List.length a = n -> skipn n (a ++ b) = b.
Proof. intros <-. rewrite skipn_app, Nat.sub_diag, skipn_all. reflexivity. Qed.
Lemma pack8_length x : List.length (pack8 io x) = 8%nat.
Proof. apply (proj2 F x). Qed.
Lemma nodeBytes_length (n : Z * point io) : List.length (@nodeBytes io n) = 28%nat.
Proof. destruct n as (i & ((x & y) & z)). unfold nodeBytes. rewrite !app_length, !pack8_length. reflexivity. Qed.
Lemma nodesBytes_length (ns : list (Z * point io)) : List.length (concat (map (@nodeBytes io) ns)) = (28 * List.length ns)%nat.
Proof. induction ns as [|n ns IH]; [reflexivity|]. cbn [map concat List.length]. rewrite app_length, nodeBytes_length, IH. lia. Qed.
Lemma records_ok ns k : (List.length ns <= k)%nat -> Forall (fun n : Z * point io => int32 (fst n) /\ uint32 (fst n)) ns ->
  records io k (concat (map (@nodeBytes io) ns)) = Ok ns.
Proof.
  revert k. induction ns as [|n ns IH]; intros k L H. { destruct k; reflexivity. }
  inversion H as [|? ? (Hn & Hu) Hns]; subst. destruct k as [|k]; [cbn in L; lia|].
  cbn [map concat]. set (rest := concat (map (@nodeBytes io) ns)) in *.
  destruct n as (i & ((x & y) & z)). change (nodeBytes (i, (x, y, z))) with (@nodeBytes io (i, (x, y, z))). remember (@nodeBytes io (i, (x, y, z)) ++ rest) as whole eqn:W. cbn [records].
  assert (NE : exists c r, @nodeBytes io (i, (x, y, z)) ++ rest = c :: r) by (eexists; eexists; reflexivity).
  destruct NE as (c & r & NE). destruct whole as [|c' r']; [rewrite <- W in NE; discriminate NE|]. clear c r NE. rewrite W. clear c' r' W.
  unfold nodeBytes. rewrite <- !app_assoc.
  assert (L4 : List.length (bytes4 i) = 4%nat) by reflexivity.
  rewrite (app_firstn _ L4), (app_skipn _ L4).
  assert (S12 : forall (u : text), skipn 12 (bytes4 i ++ pack8 io x ++ u) = u).
  { intros u. rewrite app_assoc. apply app_skipn. rewrite app_length, pack8_length. reflexivity. }
  assert (S20 : forall (u : text), skipn 20 (bytes4 i ++ pack8 io x ++ pack8 io y ++ u) = u).
  { intros u. rewrite !app_assoc. apply app_skipn. rewrite !app_length, !pack8_length. reflexivity. }
  assert (S28 : forall (u : text), skipn 28 (bytes4 i ++ pack8 io x ++ pack8 io y ++ pack8 io z ++ u) = u).
  { intros u. rewrite !app_assoc. apply app_skipn. rewrite !app_length, !pack8_length. reflexivity. }
  rewrite S12, S20, S28, !(app_firstn _ (pack8_length _)). rewrite int4_bytes4 by exact Hn. cbn [bind].
  rewrite !(proj2 (proj2 F _)). cbn [get bind]. rewrite IH; [|cbn in L; lia|exact Hns]. cbn [bind].
  unfold u32. rewrite Z.mod_small by apply Hu. reflexivity.
Qed.
Lemma readNodes_binary st (nodes : list (Z * point io)) r : p_binary st = true -> p_size st = Some 8 -> numbered nodes -> Z.of_nat (List.length nodes) < 2 ^ 31 ->
  readNodes st (textLine (zstr (Z.of_nat (List.length nodes))) ++ textLine (concat (map (@nodeBytes io) nodes)) ++ textLine (str "$EndNodes") ++ r) =
  Ok (Parsed (Some nodes) (p_elems st) true (p_size st), r).
Proof.
  intros B SZ (L & H) L31. unfold readNodes. rewrite getline_line by apply wordOk_neat, zstr_word. cbn [bind]. rewrite pyInt_zstr. cbn [get bind].
  destruct (Z.ltb_spec (Z.of_nat (List.length nodes)) 0); [lia|]. rewrite B, SZ. cbn [get bind].
  destruct (Z.ltb_spec (Z.of_nat (List.length nodes) * (4 + 3 * 8)) 0); [lia|]. unfold read.
  assert (Lb : List.length (concat (map (@nodeBytes io) nodes)) = Z.to_nat (Z.of_nat (List.length nodes) * (4 + 3 * 8))) by (rewrite nodesBytes_length; lia).
  set (B' := concat (map (@nodeBytes io) nodes)) in *. change (textLine B') with (B' ++ [chr 10]). rewrite <- !app_assoc. rewrite (app_firstn _ Lb), (app_skipn _ Lb). unfold B'.
  rewrite nodesBytes_length. assert (Z.of_nat (28 * List.length nodes) mod 28 =? 0 = true) as ->.
  { apply Z.eqb_eq. rewrite Nat2Z.inj_mul, Z.mul_comm. apply Z.mod_mul. discriminate. }
  cbn [negb]. rewrite records_ok.
  - cbn [bind]. rewrite Z.eqb_refl. cbn [bind].
    assert (G : forall u, getline ([chr 10] ++ u) = Ok ([], u)) by (intros u; reflexivity). rewrite G. cbn [bind].
    rewrite getline_line by nstr. cbn [bind]. rewrite teq_refl. rewrite ?B, ?SZ. reflexivity.
  - lia.
  - apply Forall_forall. intros m I. apply In_nth_error in I as (k & K). assert (X := H k m K).
    assert (k < List.length nodes)%nat by (apply nth_error_Some; congruence). unfold uint32, int32. lia.
Qed.

Lemma nodeCount_model t n : Some n = nodeCount t -> Some n = nodesOfType t.
Proof.
  destruct t as [|p|p]; cbn; try discriminate.
  do 7 (try (destruct p as [p|p|]; cbn [nodeCount]; try discriminate)); intros H; try discriminate H; injection H as ->; reflexivity.
Qed.
Definition isTriangle (e : element) : Prop := e_type e = 2 -> triangleForm e.
Lemma readGroup_ok (g : group) nn r es : Some nn = nodesOfType (g_type g) -> Forall (memberOk g) es -> Forall isTriangle es ->
  readGroup (g_type g) (Z.of_nat (g_ntags g)) nn (List.length es) (concat (map elementBytes es) ++ r) =
  Ok (map triangleData (triangles es), r).
Proof.
  intros NN H T. induction es as [|e es IH]; [reflexivity|]. inversion H as [|? ? (E1 & E2 & E3 & E4) Hes]; inversion T as [|? ? Ht Tes]; subst.
  apply nodeCount_model in E3. specialize (IH Hes Tes). cbn [List.length readGroup map concat]. unfold elementBytes at 1. cbn [map concat]. rewrite map_app, concat_app, <- !app_assoc.
  inversion E4 as [|? ? Hi Hr]; subst. apply Forall_app in Hr as (Hg & Hn).
  rewrite readInt_bytes by exact Hi. cbn [bind]. destruct (Z.ltb_spec (Z.of_nat (g_ntags g)) 0); [lia|]. rewrite Nat2Z.id, <- E2.
  rewrite readInts_bytes by exact Hg. cbn [bind]. assert (nn = List.length (e_nodes e)) as -> by congruence.
  rewrite readInts_bytes by exact Hn. cbn [bind]. rewrite E2, IH. unfold triangles. cbn [filter]. rewrite E1.
  destruct (Z.eqb_spec (g_type g) 2) as [Eq|Eq]; [|reflexivity].
  destruct (Ht ltac:(congruence)) as (_ & (tag & tags & Et & _) & _). rewrite Et. cbn [bind map]. 
  assert (pyget (tag :: tags) 0 = Some tag) as -> by (apply (@pyget_pos _ (tag :: tags) 0); reflexivity). cbn [get bind]. unfold triangleData at 2. rewrite Et. reflexivity.
Qed.
Lemma readGroups_ok gs : forall fuel count r, Forall groupOk gs -> Forall isTriangle (elementsOf gs) -> (List.length gs <= fuel)%nat ->
  readGroups fuel (count + Z.of_nat (List.length (elementsOf gs))) count (concat (map groupBytes gs) ++ r) = Ok (map triangleData (triangles (elementsOf gs)), r).
Proof.
  induction gs as [|g gs IH]; intros fuel count r H T L.
  - cbn [elementsOf map concat List.length app]. rewrite Z.add_0_r. destruct fuel; cbn [readGroups]; rewrite Z.ltb_irrefl; reflexivity.
  - inversion H as [|? ? (G1 & G2 & G3 & G4 & G5) Hgs]; subst. destruct fuel as [|fuel]; [cbn in L; lia|].
    change (elementsOf (g :: gs)) with (g_members g ++ elementsOf gs) in *. apply Forall_app in T as (T1 & T2).
    cbn [readGroups]. rewrite app_length, Nat2Z.inj_add.
    assert (P : 0 < Z.of_nat (List.length (g_members g))). { destruct (g_members g); [congruence|cbn; lia]. }
    destruct (Z.ltb_spec count (count + (Z.of_nat (List.length (g_members g)) + Z.of_nat (List.length (elementsOf gs))))); [|lia].
    cbn [map concat]. unfold groupBytes at 1. rewrite <- !app_assoc.
    rewrite (@readInts_bytes [g_type g; Z.of_nat (List.length (g_members g)); Z.of_nat (g_ntags g)]) by (repeat constructor; first [apply G2|apply G3|apply G4]).
    cbn [bind]. assert (NN : exists nn, Some nn = nodesOfType (g_type g)).
    { destruct (g_members g) as [|e es]; [congruence|]. inversion G5 as [|? ? (_ & _ & E3 & _) _]; subst. eexists; exact (nodeCount_model E3). }
    destruct NN as (nn & NN). rewrite <- NN. cbn [get bind]. rewrite Nat2Z.id.
    rewrite (readGroup_ok _ NN G5 T1). cbn [bind].
    replace (count + (Z.of_nat (List.length (g_members g)) + Z.of_nat (List.length (elementsOf gs))))
      with (count + Z.max 0 (Z.of_nat (List.length (g_members g))) + Z.of_nat (List.length (elementsOf gs))) by lia.
    rewrite IH; [|exact Hgs|exact T2|cbn in L; lia]. cbn [bind]. unfold triangles. rewrite filter_app, map_app. reflexivity.
Qed.
Lemma groupBytes_length gs : (List.length gs <= List.length (concat (map groupBytes gs)))%nat.
Proof. induction gs as [|g gs IH]; [apply le_n|]. cbn [map concat List.length]. rewrite app_length. unfold groupBytes at 1. rewrite app_length. cbn [map concat]. rewrite !app_length, !bytes4_length. lia. Qed.
Lemma readElems_binary st gs r : p_binary st = true -> Forall groupOk gs -> (forall t, In t (triangles (elementsOf gs)) -> triangleForm t) ->
  readElems st (textLine (zstr (Z.of_nat (List.length (elementsOf gs)))) ++ textLine (concat (map groupBytes gs)) ++ textLine (str "$EndElements") ++ r) =
  Ok (@Parsed io (p_nodes st) (Some (map triangleData (triangles (elementsOf gs)))) true (p_size st), r).
Proof.
  intros B G T. unfold readElems. rewrite getline_line by apply wordOk_neat, zstr_word. cbn [bind]. rewrite pyInt_zstr. cbn [get bind]. rewrite B.
  set (B' := concat (map groupBytes gs)) in *. change (textLine B') with (B' ++ [chr 10]). rewrite <- !app_assoc. unfold B'. rewrite (@readGroups_ok gs _ 0); [|exact G| |].
  - cbn [bind]. assert (E : forall u, getline ([chr 10] ++ u) = Ok ([], u)) by (intros u; reflexivity). rewrite E. cbn [bind].
    rewrite getline_line by nstr. cbn [bind]. rewrite teq_refl. reflexivity.
  - apply Forall_forall. intros x I E. apply T. apply filter_In. split; [exact I|]. apply Z.eqb_eq, E.
  - assert (X := groupBytes_length gs). unfold textLine. rewrite !app_length. lia.
Qed.

(** the whole file *)
Definition parses (st : parsed io) (f : text) (p : parsed io) : Prop := exists k, (k <= S (List.length f))%nat /\ parseLoop k st f = Ok p.
Lemma parseLoop_more k k' st f p : (k <= k')%nat -> parseLoop k st f = Ok p -> @parseLoop io k' st f = Ok p.
Proof.
  revert k' st f. induction k as [|k IH]; intros k' st f L H; [discriminate H|]. destruct k' as [|k']; [lia|]. assert (L' : (k <= k')%nat) by lia. clear L.
  cbn [parseLoop] in *. destruct (getline f) as [(s & r)| |]; try discriminate H. cbn [bind] in *.
  destruct (teq s []); [exact H|]. destruct (teq s (str "$MeshFormat")).
  { destruct (readFormat st r) as [(st' & r')| |]; try discriminate H. cbn [bind] in *. apply IH; assumption. }
  destruct (teq s (str "$Nodes")).
  { destruct (readNodes st r) as [(st' & r')| |]; try discriminate H. cbn [bind] in *. apply IH; assumption. }
  destruct (teq s (str "$Elements")).
  { destruct (readElems st r) as [(st' & r')| |]; try discriminate H. cbn [bind] in *. apply IH; assumption. }
  apply IH; assumption.
Qed.
Lemma parses_file f p : parses (start io) f p -> parseGmsh io f = Ok p.
Proof. intros (k & L & H). exact (parseLoop_more L H). Qed.
Lemma parses_end st : parses st [] st.
Proof. exists 1%nat. split; [cbn; lia|reflexivity]. Qed.
Lemma plain_neat l : plainLine l -> neat l.
Proof. intros (_ & A & B & _). split; assumption. Qed.
Lemma parses_plain st l f p : plainLine l -> parses st f p -> parses st (textLine l ++ f) p.
Proof.
  intros P (k & L & H). exists (S k). split. { unfold textLine. rewrite !app_length. cbn. lia. }
  cbn [parseLoop]. rewrite getline_line by apply plain_neat, P. cbn [bind]. destruct P as (N0 & _ & _ & N1 & N2 & N3). rewrite !teq_neq by assumption. exact H.
Qed.
Lemma parses_plains st ls f p : Forall plainLine ls -> parses st f p -> parses st (textLines ls ++ f) p.
Proof.
  induction 1 as [|l ls P _ IH]; intros H; [exact H|]. rewrite textLines_cons. apply parses_plain; [exact P|]. apply IH, H.
Qed.
Lemma parses_section st st' (key : text) f g p :
  (key = str "$MeshFormat" /\ readFormat st g = Ok (st', f) \/ key = str "$Nodes" /\ readNodes st g = Ok (st', f) \/ key = str "$Elements" /\ readElems st g = Ok (st', f)) ->
  (List.length f <= List.length g)%nat -> parses st' f p -> parses st (textLine key ++ g) p.
Proof.
  intros C L (k & K & H). exists (S k). split. { unfold textLine. rewrite !app_length. cbn. lia. }
  cbn [parseLoop]. destruct C as [(-> & E)|[(-> & E)|(-> & E)]].
  - rewrite getline_line by nstr. cbn [bind]. rewrite E. exact H.
  - rewrite getline_line by nstr. cbn [bind]. rewrite E. exact H.
  - rewrite getline_line by nstr. cbn [bind]. rewrite E. exact H.
Qed.
Lemma format_ascii f : readFormat (start io) (textLine (str "2.2 0 8") ++ textLine (str "$EndMeshFormat") ++ f) = Ok (Parsed None None false (Some 8), f).
Proof.
  unfold readFormat. rewrite getline_line.
  - cbn [bind]. change (words (str "2.2 0 8")) with [str "2.2"; str "0"; str "8"]. 
    assert (E : pyget [str "2.2"; str "0"; str "8"] 0 = Some (str "2.2")) by reflexivity. rewrite E. cbn [get bind]. rewrite teq_refl. cbn [negb].
    assert (E1 : tokenInt [str "2.2"; str "0"; str "8"] 1 = Ok 0) by reflexivity. assert (E2 : tokenInt [str "2.2"; str "0"; str "8"] 2 = Ok 8) by reflexivity.
    rewrite E1, E2. cbn [bind Z.eqb orb start p_binary]. rewrite getline_line by nstr. cbn [bind]. rewrite teq_refl. reflexivity.
  - split; [|vm_compute; discriminate]. repeat constructor; vm_compute; discriminate || reflexivity.
Qed.
Lemma format_binary f : readFormat (start io) (textLine (str "2.2 1 8") ++ textLine (bytes4 1) ++ textLine (str "$EndMeshFormat") ++ f) = Ok (Parsed None None true (Some 8), f).
Proof.
  unfold readFormat. rewrite getline_line.
  - cbn [bind]. change (words (str "2.2 1 8")) with [str "2.2"; str "1"; str "8"]. 
    assert (E : pyget [str "2.2"; str "1"; str "8"] 0 = Some (str "2.2")) by reflexivity. rewrite E. cbn [get bind]. rewrite teq_refl. cbn [negb].
    assert (E1 : tokenInt [str "2.2"; str "1"; str "8"] 1 = Ok 1) by reflexivity. assert (E2 : tokenInt [str "2.2"; str "1"; str "8"] 2 = Ok 8) by reflexivity.
    rewrite E1, E2. cbn [bind Z.eqb orb start p_binary]. change (1 =? 1) with true. cbn [orb]. cbn iota. change (textLine (bytes4 1)) with (bytes4 1 ++ [chr 10]). rewrite <- !app_assoc. rewrite readInt_bytes by (unfold int32; lia). cbn [bind].
    change (negb (1 =? 1)) with false. cbn iota. cbn [bind]. assert (E3 : forall u, snd (readline ([chr 10] ++ u)) = u) by reflexivity. rewrite E3. change ((1 =? 1)%positive || false) with true. cbn [bind].
    rewrite getline_line by nstr. cbn [bind]. rewrite teq_refl. reflexivity.
  - split; [|vm_compute; discriminate]. repeat constructor; vm_compute; discriminate || reflexivity.
Qed.

Lemma parse_ascii (nodes : list (Z * point io)) es before between after :
  nodes <> [] -> numbered nodes -> (forall t, In t (triangles es) -> triangleForm t) ->
  Forall plainLine before -> Forall plainLine between -> Forall plainLine after ->
  parseGmsh io (asciiFile nodes es before between after) =
    Ok (Parsed (Some (map (@roundNode io rnd) nodes)) (Some (map triangleData (triangles es))) false (Some 8)).
Proof.
  intros N NU T P1 P2 P3. apply parses_file.
  set (tail3 := textLines after).
  set (tail2 := textLines between ++ textLine (str "$Elements") ++ textLines ([zstr (Z.of_nat (List.length es))] ++ map elementLine es ++ [str "$EndElements"]) ++ tail3).
  set (tail1 := textLines before ++ textLine (str "$Nodes") ++ textLines ([zstr (Z.of_nat (List.length nodes))] ++ map (@nodeLine io) nodes ++ [str "$EndNodes"]) ++ tail2).
  assert (E : asciiFile nodes es before between after = textLine (str "$MeshFormat") ++ (textLine (str "2.2 0 8") ++ textLine (str "$EndMeshFormat") ++ tail1)).
  { unfold asciiFile, tail1, tail2, tail3. change ([str "$Nodes"; zstr (Z.of_nat (List.length nodes))]) with ([str "$Nodes"] ++ [zstr (Z.of_nat (List.length nodes))]).
    change ([str "$Elements"; zstr (Z.of_nat (List.length es))]) with ([str "$Elements"] ++ [zstr (Z.of_nat (List.length es))]).
    change ([str "$MeshFormat"; str "2.2 0 8"; str "$EndMeshFormat"]) with ([str "$MeshFormat"] ++ [str "2.2 0 8"] ++ [str "$EndMeshFormat"]).
    assert (O : forall l, textLine l = textLines [l]) by (intros l; unfold textLines; cbn [map concat]; rewrite app_nil_r; reflexivity).
    rewrite !O, <- !textLines_app. rewrite <- !app_assoc. reflexivity. }
  rewrite E. apply parses_section with (st' := Parsed None None false (Some 8)) (f := tail1).
  { left. split; [reflexivity|]. apply format_ascii. }
  { rewrite !app_length. lia. }
  apply parses_plains; [exact P1|]. apply parses_section with (st' := Parsed (Some (map (@roundNode io rnd) nodes)) None false (Some 8)) (f := tail2).
  { right. left. split; [reflexivity|]. apply (@readNodes_ascii (Parsed None None false (Some 8))); [reflexivity|exact N|exact NU]. }
  { rewrite !app_length. lia. }
  apply parses_plains; [exact P2|]. apply parses_section with (st' := Parsed (Some (map (@roundNode io rnd) nodes)) (Some (map triangleData (triangles es))) false (Some 8)) (f := tail3).
  { right. right. split; [reflexivity|]. apply (@readElems_ascii (Parsed (Some (map (@roundNode io rnd) nodes)) None false (Some 8))); [reflexivity|exact T]. }
  { rewrite !app_length. lia. }
  unfold tail3. rewrite <- (app_nil_r (textLines after)). apply parses_plains; [exact P3|]. apply parses_end.
Qed.
Lemma parse_binary (nodes : list (Z * point io)) gs before between after :
  numbered nodes -> Z.of_nat (List.length nodes) < 2 ^ 31 -> Forall groupOk gs -> (forall t, In t (triangles (elementsOf gs)) -> triangleForm t) ->
  Forall plainLine before -> Forall plainLine between -> Forall plainLine after ->
  parseGmsh io (binaryFile nodes gs before between (textLines after)) =
    Ok (Parsed (Some nodes) (Some (map triangleData (triangles (elementsOf gs)))) true (Some 8)).
Proof.
  intros NU L31 G T P1 P2 P3. apply parses_file.
  set (tail3 := textLines after).
  set (tail2 := textLines between ++ textLine (str "$Elements") ++ (textLine (zstr (Z.of_nat (List.length (elementsOf gs)))) ++ textLine (concat (map groupBytes gs)) ++ textLine (str "$EndElements") ++ tail3)).
  set (tail1 := textLines before ++ textLine (str "$Nodes") ++ (textLine (zstr (Z.of_nat (List.length nodes))) ++ textLine (concat (map (@nodeBytes io) nodes)) ++ textLine (str "$EndNodes") ++ tail2)).
  assert (E : binaryFile nodes gs before between tail3 = textLine (str "$MeshFormat") ++ (textLine (str "2.2 1 8") ++ textLine (bytes4 1) ++ textLine (str "$EndMeshFormat") ++ tail1)).
  { unfold binaryFile, tail1, tail2, tail3.
    assert (O : forall a b, textLines [a; b] = textLine a ++ textLine b) by (intros a b; unfold textLines; cbn [map concat]; rewrite app_nil_r; reflexivity).
    rewrite !O, <- !app_assoc. reflexivity. }
  rewrite E. apply parses_section with (st' := Parsed None None true (Some 8)) (f := tail1).
  { left. split; [reflexivity|]. apply format_binary. }
  { rewrite !app_length. lia. }
  apply parses_plains; [exact P1|]. apply parses_section with (st' := Parsed (Some nodes) None true (Some 8)) (f := tail2).
  { right. left. split; [reflexivity|]. apply (@readNodes_binary (Parsed None None true (Some 8))); try reflexivity; assumption. }
  { rewrite !app_length. lia. }
  apply parses_plains; [exact P2|]. apply parses_section with (st' := Parsed (Some nodes) (Some (map triangleData (triangles (elementsOf gs)))) true (Some 8)) (f := tail3).
  { right. right. split; [reflexivity|]. apply (@readElems_binary (Parsed (Some nodes) None true (Some 8))); [reflexivity|exact G|exact T]. }
  { rewrite !app_length. lia. }
  unfold tail3. rewrite <- (app_nil_r (textLines after)). apply parses_plains; [exact P3|]. apply parses_end.
Qed.
End Io.
