(** Importing exported files; reading ends on every file. *)
From Coq Require Import List ZArith Bool Lia Ascii String.
From Verif Require Import Base FileModel FileSpec FileProofs1 FileProofs2 FileProofs3 FileProofs4 FileProofs5.
Import ListNotations.
Set Implicit Arguments.
Unset Strict Implicit.
Local Open Scope Z_scope.

Definition keys : list text := [str "$MeshFormat"; str "$Nodes"; str "$Elements"].
Lemma plain_intro l : neat l -> l <> [] -> ~ In l keys -> plainLine l.
Proof.
  intros (A & B) N K. repeat split; try assumption; intros E; apply K; rewrite E; cbn; tauto.
Qed.
Lemma plain_hd l c : neat l -> hd_error l = Some c -> c <> chr 36 -> plainLine l.
Proof.
  intros N H C. apply plain_intro; [exact N|intros ->; discriminate H|]. intros K. apply C. unfold keys in K. cbn [In] in K.
  assert (X : forall s, hd_error (str s) = Some (chr 36) -> str s = l -> c = chr 36). { intros s Hs E. rewrite E in Hs. congruence. }
  destruct K as [K|[K|[K|[]]]]; (eapply X; [|exact K]; reflexivity).
Qed.
Lemma zstr_hd z : exists c, hd_error (zstr z) = Some c /\ c <> chr 36.
Proof.
  destruct (zstr z) as [|c w] eqn:E. { destruct (zstr_word z) as (N & _). congruence. }
  exists c. split; [reflexivity|]. intros ->. unfold zstr, DecimalString.NilZero.string_of_int, DecimalString.NilZero.string_of_uint in E.
  destruct (Z.to_int z) as [u|u]; [|discriminate E]. destruct u; discriminate E.
Qed.
Lemma zstr_plain z : plainLine (zstr z).
Proof. destruct (zstr_hd z) as (c & H & N). eapply plain_hd; [apply wordOk_neat, zstr_word|exact H|exact N]. Qed.
Lemma sentence_plain z ws : Forall wordOk ws -> plainLine (sentence (zstr z :: ws)).
Proof.
  intros H. destruct (zstr_hd z) as (c & Hc & N). eapply plain_hd; [apply sentence_neat; constructor; [apply zstr_word|exact H]| |exact N].
  destruct (zstr z) as [|d w]; [discriminate Hc|]. destruct ws; exact Hc.
Qed.
Ltac key_plain := apply plain_intro; [nstr|discriminate|intros K; cbn in K; destruct K as [K|[K|[K|[]]]]; discriminate K].
Section Io.
Variables (io : floatIO) (rnd : V io -> V io).
Hypothesis F : floatsOk rnd.
Lemma fstr_plain x : plainLine (fstr io x).
Proof.
  destruct (proj1 F x) as (N & W & D & _). destruct (fstr io x) as [|c w] eqn:E; [congruence|].
  eapply plain_hd with (c := c); [apply wordOk_neat; split; [discriminate|exact W]|reflexivity|]. intros ->. apply D. reflexivity.
Qed.
Lemma block_plain (b : block io) : nameOk b -> Forall plainLine (blockLines b).
Proof.
  intros N. unfold blockLines, blockHead. repeat (apply Forall_app; split).
  - apply Forall_forall. intros l Hl. cbn [In] in Hl. destruct Hl as [<-|[<-|[<-|[<-|[<-|[<-|[<-|[<-|[<-|[]]]]]]]]]];
      try key_plain; try apply zstr_plain; try apply fstr_plain.
    { destruct (b_at_nodes b); key_plain. }
    apply plain_hd with (c := chr 34); [|reflexivity|discriminate].
    split; [|rewrite app_assoc, last_app by discriminate; discriminate].
    repeat (apply Forall_app; split); try exact N; repeat constructor; discriminate || reflexivity.
  - apply Forall_forall. intros l Hl. apply in_map_iff in Hl as (v & <- & _). apply sentence_plain. apply Forall_forall. intros w Hw. apply in_map_iff in Hw as (x & <- & _). apply (fstr_word F).
  - constructor; [|constructor]. unfold blockEnd. destruct (b_at_nodes b); key_plain.
Qed.
Lemma gridNodes_nth (b : bgrid io) k n : nth_error (gridNodes b) k = Some n -> fst n = Z.of_nat k + 1 /\ nth_error (b_vertices b) k = Some (snd n).
Proof. intros H. apply nth_combine in H as (H1 & H2). apply numbers_nth_inv in H1 as (H1 & _). split; assumption. Qed.
Lemma gridNodes_length (b : bgrid io) : List.length (gridNodes b) = List.length (b_vertices b).
Proof. unfold gridNodes. rewrite combine_length, numbers_length. apply Nat.min_id. Qed.
Lemma gridNodes_numbered (b : bgrid io) : gridOk b -> numbered (gridNodes b) /\ gridNodes b <> [].
Proof.
  intros (G1 & _ & G3 & G4). split.
  - split; [rewrite gridNodes_length; lia|]. intros k n K. apply (gridNodes_nth K).
  - intros E. assert (L := gridNodes_length b). rewrite E in L. destruct (b_elements b) as [|vs es]; [congruence|].
    destruct (G4 vs (or_introl eq_refl)) as (L3 & R). destruct vs as [|v vs]; [discriminate L3|]. specialize (R v (or_introl eq_refl)). cbn [List.length] in L. lia.
Qed.
Lemma gridElements_in (b : bgrid io) doms e : gridOk b -> domsOk b doms -> In e (gridElements b doms) ->
  exists k dom vs, (k < List.length (b_elements b))%nat /\ nth_error doms k = Some dom /\ nth_error (b_elements b) k = Some vs /\ e = Element (Z.of_nat k + 1) 2 [dom; 0] (map (fun v => v + 1) vs).
Proof.
  intros G D H. apply In_nth_error in H as (k & K). apply nth_map_inv in K as ((id & (dom & vs)) & K & ->). apply nth_combine in K as (K1 & K2). apply nth_combine in K2 as (K2 & K3).
  cbn [fst snd] in *. apply numbers_nth_inv in K1 as (-> & L). exists k, dom, vs. repeat split; assumption.
Qed.
Lemma gridElements_type (b : bgrid io) doms : gridOk b -> domsOk b doms -> triangles (gridElements b doms) = gridElements b doms.
Proof.
  intros G D. unfold triangles. assert (H : forall e, In e (gridElements b doms) -> e_type e =? 2 = true).
  { intros e He. destruct (gridElements_in G D He) as (k & dom & vs & _ & _ & _ & ->). reflexivity. }
  revert H. generalize (gridElements b doms). induction l as [|e l IH]; intros H; [reflexivity|]. cbn [filter]. rewrite (H e (or_introl eq_refl)), IH; [reflexivity|]. intros x Hx. apply H. now right.
Qed.
Lemma gridElements_ok (b : bgrid io) doms e : gridOk b -> domsOk b doms -> In e (gridElements b doms) -> triangleOk (gridNodes b) e.
Proof.
  intros G D H. destruct (gridElements_in G D H) as (k & dom & vs & L & K1 & K2 & ->). destruct G as (G1 & G2 & G3 & G4). destruct D as (D1 & D2 & D3).
  destruct (G4 vs (nth_error_In _ _ K2)) as (L3 & R). unfold triangleOk. cbn [e_id e_tags e_nodes]. split; [unfold uint32; lia|]. split.
  { exists dom, [0]. split; [reflexivity|]. rewrite Forall_forall in D3. apply D3. eapply nth_error_In, K1. }
  split; [rewrite map_length; exact L3|]. intros v Hv. apply in_map_iff in Hv as (w & <- & Hw). specialize (R w Hw). rewrite gridNodes_length. lia.
Qed.
Lemma gridElements_nth (b : bgrid io) doms k vs dom : nth_error (b_elements b) k = Some vs -> nth_error doms k = Some dom ->
  nth_error (gridElements b doms) k = Some (Element (Z.of_nat k + 1) 2 [dom; 0] (map (fun v => v + 1) vs)).
Proof.
  intros K1 K2. unfold gridElements. assert (L : (k < List.length (b_elements b))%nat) by (apply nth_error_Some; congruence).
  assert (C : forall A B (a : list A) (c : list B) x y, nth_error a k = Some x -> nth_error c k = Some y -> nth_error (combine a c) k = Some (x, y)).
  { clear. induction k as [|k IH]; intros A B [|x a] [|y c] u v H1 H2; try discriminate; cbn in *; [congruence|]. apply IH; assumption. }
  apply (map_nth_error (fun x => let '(id, (dom, vs)) := x in Element id 2 [dom; 0] (map (fun v => v + 1) vs)) k (combine (numbers (List.length (b_elements b))) (combine doms (b_elements b))) (d := (Z.of_nat k + 1, (dom, vs)))).
  apply C; [apply numbers_nth, L|]. apply C; assumption.
Qed.
Lemma gridElements_length (b : bgrid io) doms : domsOk b doms -> List.length (gridElements b doms) = List.length (b_elements b).
Proof. intros (D & _). unfold gridElements. rewrite map_length, !combine_length, numbers_length, D. rewrite !Nat.min_id. reflexivity. Qed.

Lemma describes_same (r : V io -> V io) (b : bgrid io) doms g : gridOk b -> domsOk b doms -> describes (map (@roundNode io r) (gridNodes b)) (gridElements b doms) g ->
  sameGrid r b g /\ g_domain_indices g = doms.
Proof.
  intros G D H. assert (GL := gridElements_length D). split.
  - constructor.
    + rewrite (de_elements H). exact GL.
    + rewrite (de_ids H). apply nth_error_ext. intros k. destruct (nth_error (b_elements b) k) as [vs|] eqn:K.
      * assert (L : (k < List.length (b_elements b))%nat) by (apply nth_error_Some; congruence). rewrite (numbers_nth L).
        destruct (nth_error doms k) as [dom|] eqn:Kd; [|apply nth_error_None in Kd; destruct D as (D & _); lia].
        rewrite (map_nth_error e_id k _ (gridElements_nth K Kd)). reflexivity.
      * apply nth_error_None in K. transitivity (@None Z); [|symmetry]; apply nth_error_None; [rewrite map_length, GL|rewrite numbers_length]; exact K.
    + apply (de_vertices H).
    + apply (de_distinct H).
    + intros k i p Ki Kp. assert (X := de_positions H Ki Kp). apply in_map_iff in X as ((j & ((x & y) & z)) & E & Hj). cbn [roundNode] in E. inversion E; subst.
      apply In_nth_error in Hj as (m & Km). apply gridNodes_nth in Km as (Km1 & Km2). cbn [fst snd] in *. exists x, y, z. split; [lia|]. split; [|reflexivity].
      rewrite Km1. replace (Z.to_nat (Z.of_nat m + 1 - 1)) with m by lia. exact Km2.
    + intros k vs K. assert (L : (k < List.length (b_elements b))%nat) by (apply nth_error_Some; congruence).
      destruct (nth_error doms k) as [dom|] eqn:Kd; [|apply nth_error_None in Kd; destruct D as (D & _); lia].
      destruct (de_corners H (gridElements_nth K Kd)) as (ws & Kw & Fw). exists ws. split; [exact Kw|]. cbn [e_nodes] in Fw.
      clear -Fw. revert Fw. generalize ws. induction vs as [|v vs IH]; intros [|w us] Fw; cbn [map] in Fw; inversion Fw; subst; constructor; auto.
  - rewrite (de_domains H). apply nth_error_ext. intros k. destruct (nth_error doms k) as [dom|] eqn:Kd.
    + destruct (nth_error (b_elements b) k) as [vs|] eqn:K.
      * rewrite (map_nth_error _ k _ (gridElements_nth K Kd)). reflexivity.
      * apply nth_error_None in K. destruct D as (D & _). assert (k < List.length doms)%nat by (apply nth_error_Some; congruence). lia.
    + apply nth_error_None in Kd. apply nth_error_None. rewrite map_length, GL. destruct D as (D & _). lia.
Qed.
Lemma roundNode_same (n : Z * point io) : roundNode (fun x => x) n = n.
Proof. destruct n as (i & ((x & y) & z)). reflexivity. Qed.
Lemma triangleOk_form (nodes : list (Z * point io)) t : triangleOk nodes t -> triangleForm t.
Proof. intros (X & Y & Z & _). repeat split; try apply X; assumption. Qed.
Lemma triangleOk_map (nodes : list (Z * point io)) t : triangleOk nodes t -> triangleOk (map (@roundNode io rnd) nodes) t.
Proof. unfold triangleOk. rewrite map_length. tauto. Qed.
Lemma numbered_map (nodes : list (Z * point io)) : numbered nodes -> numbered (map (@roundNode io rnd) nodes).
Proof. intros (A & B). split; [rewrite map_length; exact A|]. intros k n K. apply nth_map_inv in K as (m & K & ->). rewrite roundNode_id. apply B, K. Qed.

Variable argsort : list Z -> list nat.
Hypothesis A : argsortOk argsort.
Lemma import_ascii (nodes : list (Z * point io)) es before between after : nodes <> [] -> numbered nodes -> triangles es <> [] -> (forall t, In t (triangles es) -> triangleOk nodes t) ->
  Forall plainLine before -> Forall plainLine between -> Forall plainLine after ->
  exists g, importGmsh io argsort (asciiFile nodes es before between after) = Ok g /\ describes (map (@roundNode io rnd) nodes) (triangles es) g.
Proof.
  intros N NU T TO P1 P2 P3. unfold importGmsh. rewrite (parse_ascii F N NU (fun t Ht => triangleOk_form (TO t Ht)) P1 P2 P3). cbn [bind].
  apply create_ok; [exact A| |apply numbered_map, NU|exact T|intros t Ht; apply triangleOk_map, TO, Ht].
  destruct nodes; [congruence|discriminate].
Qed.
Lemma import_binary (nodes : list (Z * point io)) gs before between after : nodes <> [] -> numbered nodes -> Z.of_nat (List.length nodes) < 2 ^ 31 -> triangles (elementsOf gs) <> [] ->
  Forall groupOk gs -> (forall t, In t (triangles (elementsOf gs)) -> triangleOk nodes t) ->
  Forall plainLine before -> Forall plainLine between -> Forall plainLine after ->
  exists g, importGmsh io argsort (binaryFile nodes gs before between (textLines after)) = Ok g /\ describes nodes (triangles (elementsOf gs)) g.
Proof.
  intros N NU L31 T G TO P1 P2 P3. unfold importGmsh. rewrite (parse_binary F NU L31 G (fun t Ht => triangleOk_form (TO t Ht)) P1 P2 P3). cbn [bind].
  apply create_ok; [exact A|exact N|exact NU|exact T|exact TO].
Qed.
Lemma import_gridFile_ascii (b : bgrid io) doms blocks : gridOk b -> domsOk b doms -> Forall (@nameOk io) blocks ->
  exists g, importGmsh io argsort (gridFile false b doms blocks) = Ok g /\ sameGrid rnd b g /\ g_domain_indices g = doms.
Proof.
  intros G D B. destruct (gridNodes_numbered G) as (NU & N).
  destruct (@import_ascii (gridNodes b) (gridElements b doms) [] [] (concat (map (@blockLines io) blocks)) N NU) as (g & E & H).
  - rewrite (gridElements_type G D). intros X. assert (Y := gridElements_length D). rewrite X in Y. destruct G as (_ & _ & G3 & _). destruct (b_elements b); [congruence|discriminate Y].
  - rewrite (gridElements_type G D). intros t Ht. apply (gridElements_ok G D Ht).
  - constructor.
  - constructor.
  - clear -B F. induction B as [|x l Hx _ IH]; [constructor|]. cbn [map concat]. apply Forall_app. split; [apply (block_plain Hx)|exact IH].
  - exists g. split; [exact E|]. rewrite (gridElements_type G D) in H. apply (describes_same G D H).
Qed.
Lemma import_gridFile_binary (b : bgrid io) doms : gridOk b -> domsOk b doms ->
  exists g, importGmsh io argsort (gridFile true b doms []) = Ok g /\ sameGrid (fun x => x) b g /\ g_domain_indices g = doms.
Proof.
  intros G D. destruct (gridNodes_numbered G) as (NU & N).
  assert (EL : elementsOf [Group 2 2 (gridElements b doms)] = gridElements b doms) by (unfold elementsOf; cbn [map concat g_members]; apply app_nil_r).
  destruct (@import_binary (gridNodes b) [Group 2 2 (gridElements b doms)] [] [] [] N NU) as (g & E & H).
  - rewrite gridNodes_length. apply G.
  - rewrite EL, (gridElements_type G D). intros X. assert (Y := gridElements_length D). rewrite X in Y. destruct G as (_ & _ & G3 & _). destruct (b_elements b); [congruence|discriminate Y].
  - constructor; [|constructor]. assert (Y := gridElements_length D). unfold groupOk. cbn [g_members g_type g_ntags]. split; [intros X; rewrite X in Y; destruct G as (_ & _ & G3 & _); destruct (b_elements b); [congruence|discriminate Y]|].
    split; [unfold int32; lia|]. rewrite Y. split; [unfold int32; destruct G as (_ & G2 & _); lia|]. split; [unfold int32; lia|].
    apply Forall_forall. intros e He. destruct (gridElements_in G D He) as (k & dom & vs & L & K1 & K2 & ->). destruct G as (G1 & G2 & G3 & G4). destruct (G4 vs (nth_error_In _ _ K2)) as (L3 & R).
    unfold memberOk. cbn [e_type e_tags e_nodes e_id g_type g_ntags]. split; [reflexivity|]. split; [reflexivity|]. split; [rewrite map_length, L3; reflexivity|].
    constructor; [unfold int32; lia|]. apply Forall_app. split.
    + constructor; [|constructor; [unfold int32; lia|constructor]]. destruct D as (_ & D2 & _). rewrite Forall_forall in D2. apply D2. eapply nth_error_In, K1.
    + apply Forall_forall. intros v Hv. apply in_map_iff in Hv as (w & <- & Hw). specialize (R w Hw). unfold int32. lia.
  - rewrite EL, (gridElements_type G D). intros t Ht. apply (gridElements_ok G D Ht).
  - constructor.
  - constructor.
  - constructor.
  - exists g. split; [exact E|]. rewrite EL, (gridElements_type G D) in H. apply (describes_same (r := fun x => x) G D).
    rewrite (map_ext _ (fun n => n) roundNode_same), map_id. exact H.
Qed.
End Io.

(** ---- reading ends ---- *)
Lemma readline_shorter f : (List.length (snd (readline f)) <= List.length f)%nat /\ (f <> [] -> (List.length (snd (readline f)) < List.length f)%nat).
Proof.
  induction f as [|c f (I1 & I2)]; [split; [apply le_n|congruence]|]. cbn [readline]. destruct (Ascii.eqb c nl); [cbn; lia|].
  destruct (readline f) as (l & r). cbn [snd] in *. cbn [List.length]. lia.
Qed.
Lemma getline_shorter f s r : getline f = Ok (s, r) -> (List.length r <= List.length f)%nat /\ (s <> [] -> (List.length r < List.length f)%nat).
Proof.
  unfold getline. destruct (readline f) as (l & r') eqn:E. destruct (utf8 (rstrip l)); [|discriminate]. intros H. inversion H; subst.
  assert (X := readline_shorter f). rewrite E in X. cbn [snd] in X. split; [apply X|]. intros N. apply X. intros ->. cbn in E. inversion E; subst. apply N. reflexivity.
Qed.
Lemma getline_total f : getline f <> Running.
Proof. unfold getline. destruct (readline f). destruct (utf8 _); discriminate. Qed.
Lemma readInt_shorter f z r : readInt f = Ok (z, r) -> (List.length r < List.length f)%nat.
Proof.
  unfold readInt, read. destruct (int4 (firstn 4 f)) as [x| |] eqn:E; try discriminate. cbn [bind]. intros H. inversion H; subst. clear H.
  destruct f as [|a f]; [discriminate E|]. change (List.length (skipn 4 (a :: f)) < List.length (a :: f))%nat. rewrite skipn_length. cbn [List.length]. lia.
Qed.
Lemma int4_total b : int4 b <> Running.
Proof. unfold int4. destruct b as [|? [|? [|? [|? [|? ?]]]]]; discriminate. Qed.
Lemma readInt_total f : readInt f <> Running.
Proof. unfold readInt, read. assert (X := @int4_total (firstn 4 f)). destruct (int4 (firstn 4 f)); try discriminate. congruence. Qed.
Lemma readInts_shorter n f l r : readInts n f = Ok (l, r) -> (List.length r + n <= List.length f)%nat.
Proof.
  revert f l r. induction n as [|n IH]; intros f l r H; cbn [readInts] in H; [inversion H; lia|].
  destruct (readInt f) as [(z & r1)| |] eqn:E; try discriminate H. cbn [bind] in H. apply readInt_shorter in E.
  destruct (readInts n r1) as [(zs & r2)| |] eqn:E2; try discriminate H. cbn [bind] in H. inversion H; subst. apply IH in E2. lia.
Qed.
Lemma readInts_total n f : readInts n f <> Running.
Proof.
  revert f. induction n as [|n IH]; intros f; cbn [readInts]; [discriminate|]. assert (X := @readInt_total f). destruct (readInt f) as [(z & r1)| |]; try discriminate; [|congruence].
  cbn [bind]. specialize (IH r1). destruct (readInts n r1) as [(? & ?)| |]; try discriminate. congruence.
Qed.
Ltac ends := try discriminate; try congruence.
Lemma get_total {A} (x : option A) : get x <> Running. Proof. destruct x; discriminate. Qed.
Lemma bind_total {A B} (x : res A) (f : A -> res B) : x <> Running -> (forall a, x = Ok a -> f a <> Running) -> bind x f <> Running.
Proof. intros H G. destruct x; cbn [bind]; [apply G; reflexivity|discriminate|congruence]. Qed.
Lemma bind_inv {A B} (x : res A) (f : A -> res B) y : bind x f = Ok y -> exists a, x = Ok a /\ f a = Ok y.
Proof. destruct x; cbn [bind]; intros H; try discriminate H. exists a. split; [reflexivity|exact H]. Qed.
Lemma tokenInt_total t i : tokenInt t i <> Running.
Proof. unfold tokenInt. apply bind_total; [apply get_total|]. intros w _. apply get_total. Qed.
Lemma readElement_total s : readElement s <> Running.
Proof.
  unfold readElement. repeat (apply bind_total; [apply tokenInt_total|intros]). destruct (negb _); [discriminate|]. repeat (apply bind_total; [apply tokenInt_total|intros]). discriminate.
Qed.
Lemma readElements_total n : forall s f, readElements n s f <> Running.
Proof.
  induction n as [|n IH]; intros s f; cbn [readElements]; [discriminate|]. destruct (teq _ _); [discriminate|].
  apply bind_total; [apply readElement_total|]. intros e _. apply bind_total; [apply getline_total|]. intros (s' & f') _. apply bind_total; [destruct n; [discriminate|apply IH]|]. intros (l & x) _. discriminate.
Qed.
Lemma readElements_shorter n : forall s f l s' r, readElements n s f = Ok (l, (s', r)) -> (List.length r <= List.length f)%nat.
Proof.
  induction n as [|n IH]; intros s f l s' r H; cbn [readElements] in H; [discriminate H|]. destruct (teq _ _); [discriminate H|].
  apply bind_inv in H as (e & _ & H). apply bind_inv in H as ((s1 & f1) & E1 & H). apply bind_inv in H as ((l2 & (s2 & f2)) & E2 & H). inversion H; subst. apply getline_shorter in E1 as (E1 & _).
  destruct n; [inversion E2; subst; exact E1|]. apply IH in E2. lia.
Qed.
Lemma readGroup_total t k nn n : forall f, readGroup t k nn n f <> Running.
Proof.
  induction n as [|n IH]; intros f; cbn [readGroup]; [discriminate|]. apply bind_total; [apply readInt_total|]. intros (i & f1) _. destruct (k <? 0); [discriminate|].
  apply bind_total; [apply readInts_total|]. intros (tags & f2) _. apply bind_total; [apply readInts_total|]. intros (nodes & f3) _. destruct (t =? 2); [|apply IH].
  apply bind_total; [apply get_total|]. intros tag _. apply bind_total; [apply IH|]. intros (l & f4) _. discriminate.
Qed.
Lemma readGroup_shorter t k nn n : forall f l r, readGroup t k nn n f = Ok (l, r) -> (List.length r <= List.length f)%nat.
Proof.
  induction n as [|n IH]; intros f l r H; cbn [readGroup] in H; [inversion H; apply le_n|]. apply bind_inv in H as ((i & f1) & E1 & H). destruct (k <? 0); [discriminate H|].
  apply bind_inv in H as ((tags & f2) & E2 & H). apply bind_inv in H as ((nodes & f3) & E3 & H). apply readInt_shorter in E1. apply readInts_shorter in E2. apply readInts_shorter in E3.
  destruct (t =? 2).
  - apply bind_inv in H as (tag & _ & H). apply bind_inv in H as ((l4 & f4) & E4 & H). inversion H; subst. apply IH in E4. lia.
  - apply IH in H. lia.
Qed.
Lemma readGroups_end fuel n : forall count f, (List.length f < fuel)%nat -> readGroups fuel n count f <> Running /\ forall l r, readGroups fuel n count f = Ok (l, r) -> (List.length r <= List.length f)%nat.
Proof.
  induction fuel as [|fuel IH]; intros count f L; [lia|]. cbn [readGroups]. destruct (count <? n); [|split; [discriminate|intros l r H; inversion H; apply le_n]].
  split.
  - apply bind_total; [apply readInts_total|]. intros (h & f1) E1. apply readInts_shorter in E1. destruct h as [|t [|k [|g [|? ?]]]]; try discriminate.
    apply bind_total; [apply get_total|]. intros nn _. apply bind_total; [apply readGroup_total|]. intros (l & f2) E2. apply readGroup_shorter in E2.
    apply bind_total; [apply IH; lia|]. intros (l' & f3) _. discriminate.
  - intros l r H. apply bind_inv in H as ((h & f1) & E1 & H). apply readInts_shorter in E1. destruct h as [|t [|k [|g [|? ?]]]]; try discriminate H.
    apply bind_inv in H as (nn & _ & H). apply bind_inv in H as ((l2 & f2) & E2 & H). apply readGroup_shorter in E2. apply bind_inv in H as ((l3 & f3) & E3 & H). inversion H; subst.
    apply IH in E3; lia.
Qed.
Section Ends.
Variable io : floatIO.
Lemma readVertex_total s : readVertex io s <> Running.
Proof. unfold readVertex. destruct (words s) as [|? [|? [|? [|? [|? ?]]]]]; try discriminate. repeat (apply bind_total; [apply get_total|intros]). discriminate. Qed.
Lemma readVertices_total n : forall s f, readVertices io n s f <> Running.
Proof.
  induction n as [|n IH]; intros s f; cbn [readVertices]; [discriminate|]. destruct (teq _ _); [discriminate|].
  apply bind_total; [apply readVertex_total|]. intros (i & p) _. apply bind_total; [apply getline_total|]. intros (s' & f') _. apply bind_total; [destruct n; [discriminate|apply IH]|]. intros (l & x) _. discriminate.
Qed.
Lemma readVertices_shorter n : forall s f l s' r, readVertices io n s f = Ok (l, (s', r)) -> (List.length r <= List.length f)%nat.
Proof.
  induction n as [|n IH]; intros s f l s' r H; cbn [readVertices] in H; [discriminate H|]. destruct (teq _ _); [discriminate H|].
  apply bind_inv in H as ((i & p) & _ & H). apply bind_inv in H as ((s1 & f1) & E1 & H). apply bind_inv in H as ((l2 & (s2 & f2)) & E2 & H). inversion H; subst. apply getline_shorter in E1 as (E1 & _).
  destruct n; [inversion E2; subst; exact E1|]. apply IH in E2. lia.
Qed.
Lemma records_total n : forall b, records io n b <> Running.
Proof.
  induction n as [|n IH]; intros b; cbn [records]; destruct b as [|c b]; try discriminate. apply bind_total; [apply int4_total|]. intros i _.
  do 3 (apply bind_total; [apply get_total|intros ? _]). apply bind_total; [apply IH|]. intros l _. discriminate.
Qed.
Lemma readFormat_end (st : parsed io) f : readFormat st f <> Running /\ forall st' r, readFormat st f = Ok (st', r) -> (List.length r <= List.length f)%nat.
Proof.
  unfold readFormat. split.
  - apply bind_total; [apply getline_total|]. intros (s & f1) _. apply bind_total; [apply get_total|]. intros v _. destruct (negb _); [discriminate|].
    apply bind_total; [apply tokenInt_total|]. intros b _. apply bind_total; [apply tokenInt_total|]. intros sz _. apply bind_total.
    { destruct (_ || _); [|discriminate]. apply bind_total; [apply readInt_total|]. intros (x & f2) _. destruct (negb _); discriminate. }
    intros f2 _. apply bind_total; [apply getline_total|]. intros (s3 & f3) _. destruct (teq _ _); discriminate.
  - intros st' r H. apply bind_inv in H as ((s & f1) & E1 & H). apply bind_inv in H as (v & _ & H). destruct (negb _); [discriminate H|]. apply bind_inv in H as (b & _ & H). apply bind_inv in H as (sz & _ & H).
    apply bind_inv in H as (f2 & E2 & H). apply bind_inv in H as ((s3 & f3) & E3 & H). destruct (teq _ _); [|discriminate H]. inversion H; subst.
    apply getline_shorter in E1 as (E1 & _). apply getline_shorter in E3 as (E3 & _). destruct (_ || _).
    + apply bind_inv in E2 as ((x & f4) & E4 & E2). apply readInt_shorter in E4. destruct (negb _); [discriminate E2|]. inversion E2; subst. assert (X := proj1 (readline_shorter f4)). lia.
    + inversion E2; subst. lia.
Qed.
Lemma readNodes_end (st : parsed io) f : readNodes st f <> Running /\ forall st' r, readNodes st f = Ok (st', r) -> (List.length r <= List.length f)%nat.
Proof.
  unfold readNodes. split.
  - apply bind_total; [apply getline_total|]. intros (s & f1) _. apply bind_total; [apply get_total|]. intros n _. destruct (n <? 0); [discriminate|]. apply bind_total.
    + destruct (p_binary st).
      * apply bind_total; [apply get_total|]. intros sz _. destruct (if _ <? 0 then _ else _) as (b & f2). destruct (negb _); [discriminate|]. apply bind_total; [apply records_total|]. intros l _.
        apply bind_total. { destruct (_ =? n); [discriminate|]. destruct l as [|? [|? ?]]; discriminate. } intros l' _. apply bind_total; [apply getline_total|]. intros (? & f3) _. apply bind_total; [apply getline_total|]. intros (? & f4) _. discriminate.
      * apply bind_total; [apply getline_total|]. intros (s2 & f2) _. apply readVertices_total.
    + intros (l & (s2 & f2)) _. destruct (teq _ _); discriminate.
  - intros st' r H. apply bind_inv in H as ((s & f1) & E1 & H). apply bind_inv in H as (n & _ & H). destruct (n <? 0); [discriminate H|]. apply bind_inv in H as ((l & (s2 & f2)) & E2 & H). destruct (teq _ _); [|discriminate H]. inversion H; subst.
    apply getline_shorter in E1 as (E1 & _). destruct (p_binary st).
    + apply bind_inv in E2 as (sz & _ & E2). destruct (if _ <? 0 then _ else _) as (b & f3) eqn:E3. destruct (negb _); [discriminate E2|]. apply bind_inv in E2 as (l2 & _ & E2). apply bind_inv in E2 as (l3 & _ & E2).
      apply bind_inv in E2 as ((? & f4) & E4 & E2). apply bind_inv in E2 as ((? & f5) & E5 & E2). inversion E2; subst. apply getline_shorter in E4 as (E4 & _). apply getline_shorter in E5 as (E5 & _).
      assert (List.length f3 <= List.length f1)%nat; [|lia]. destruct (_ <? 0) in E3; inversion E3; subst; [cbn; lia|]. rewrite skipn_length. lia.
    + apply bind_inv in E2 as ((s3 & f3) & E3 & E2). apply getline_shorter in E3 as (E3 & _). apply readVertices_shorter in E2. lia.
Qed.
Lemma readElems_end (st : parsed io) f : readElems st f <> Running /\ forall st' r, readElems st f = Ok (st', r) -> (List.length r <= List.length f)%nat.
Proof.
  unfold readElems. split.
  - apply bind_total; [apply getline_total|]. intros (s & f1) _. apply bind_total; [apply get_total|]. intros n _. apply bind_total.
    + destruct (p_binary st).
      * apply bind_total; [apply readGroups_end; lia|]. intros (l & f2) _. apply bind_total; [apply getline_total|]. intros (? & f3) _. apply bind_total; [apply getline_total|]. intros (? & f4) _. discriminate.
      * apply bind_total; [apply getline_total|]. intros (s2 & f2) _. destruct (n <=? 0); [destruct (_ && _); discriminate|apply readElements_total].
    + intros (l & (s2 & f2)) _. destruct (teq _ _); discriminate.
  - intros st' r H. apply bind_inv in H as ((s & f1) & E1 & H). apply bind_inv in H as (n & _ & H). apply bind_inv in H as ((l & (s2 & f2)) & E2 & H). destruct (teq _ _); [|discriminate H]. inversion H; subst.
    apply getline_shorter in E1 as (E1 & _). destruct (p_binary st).
    + apply bind_inv in E2 as ((l2 & f3) & E3 & E2). apply readGroups_end in E3; [|lia].
      apply bind_inv in E2 as ((? & f4) & E4 & E2). apply bind_inv in E2 as ((? & f5) & E5 & E2). inversion E2; subst. apply getline_shorter in E4 as (E4 & _). apply getline_shorter in E5 as (E5 & _). lia.
    + apply bind_inv in E2 as ((s3 & f3) & E3 & E2). apply getline_shorter in E3 as (E3 & _). destruct (n <=? 0); [destruct (_ && _); [|discriminate E2]; inversion E2; subst; lia|]. apply readElements_shorter in E2. lia.
Qed.
Lemma parseLoop_ends fuel : forall (st : parsed io) f, (List.length f < fuel)%nat -> parseLoop fuel st f <> Running.
Proof.
  induction fuel as [|fuel IH]; intros st f L; [lia|]. cbn [parseLoop]. apply bind_total; [apply getline_total|]. intros (s & f1) E1. apply getline_shorter in E1 as (_ & E1).
  destruct (teq s []) eqn:T; [discriminate|]. assert (N : s <> []) by (intros ->; rewrite teq_refl in T; discriminate T). specialize (E1 N).
  destruct (teq s (str "$MeshFormat")). { apply bind_total; [apply readFormat_end|]. intros (st' & f2) E2. apply readFormat_end in E2. apply IH. lia. }
  destruct (teq s (str "$Nodes")). { apply bind_total; [apply readNodes_end|]. intros (st' & f2) E2. apply readNodes_end in E2. apply IH. lia. }
  destruct (teq s (str "$Elements")). { apply bind_total; [apply readElems_end|]. intros (st' & f2) E2. apply readElems_end in E2. apply IH. lia. }
  apply IH. lia.
Qed.
Lemma mapM_total {A B} (f : A -> res B) l : (forall a, f a <> Running) -> mapM f l <> Running.
Proof. intros H. induction l as [|a l IH]; cbn [mapM]; [discriminate|]. apply bind_total; [apply H|]. intros b _. apply bind_total; [exact IH|]. intros bs _. discriminate. Qed.
Lemma useVertex_total s v : useVertex s v <> Running.
Proof. destruct s as (u & c). unfold useVertex. apply bind_total; [apply get_total|]. intros x _. destruct (x =? -1); [|discriminate]. apply bind_total; [apply get_total|]. intros y _. discriminate. Qed.
Lemma useVertices_total vs : forall s, useVertices s vs <> Running.
Proof. induction vs as [|v vs IH]; intros s; cbn [useVertices]; [discriminate|]. apply bind_total; [apply useVertex_total|]. intros (x & s1) _. apply bind_total; [apply IH|]. intros (l & s2) _. discriminate. Qed.
Lemma useElements_total ts : forall s, useElements s ts <> Running.
Proof. induction ts as [|((i & vs) & d) ts IH]; intros s; cbn [useElements]; [discriminate|]. apply bind_total; [apply useVertices_total|]. intros (x & s1) _. apply bind_total; [apply IH|]. intros (l & s2) _. discriminate. Qed.
Lemma import_ends argsort f : importGmsh io argsort f <> Running.
Proof.
  unfold importGmsh. apply bind_total; [apply parseLoop_ends; lia|]. intros p _. unfold createGrid. do 3 (apply bind_total; [apply get_total|intros ? _]). destruct (_ || _); [discriminate|].
  apply bind_total; [apply useElements_total|]. intros (es & (u & c)) _. do 2 (apply bind_total; [apply mapM_total; intros; apply get_total|intros ? _]). destruct (_ && _); discriminate.
Qed.
End Ends.
