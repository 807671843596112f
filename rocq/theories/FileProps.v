(** C130-C140: Gmsh files. *)
From Coq Require Import List ZArith Bool Lia Ascii String Sorted Permutation.
From Verif Require Import Base FileModel FileSpec FileProofs1 FileProofs2 FileProofs3 FileProofs4 FileProofs5 FileProofs6 FileProofs7.
Import ListNotations.
Set Implicit Arguments.
Unset Strict Implicit.
Local Open Scope Z_scope.

(** ---- concrete numbers and a concrete argsort, for the examples: the floating point numbers 0 and 1, insertion sort ---- *)
Definition zeroBytes : text := repeat (chr 0) 8.
Definition oneBytes : text := repeat (chr 0) 6 ++ [chr 240; chr 63].
Definition bits : floatIO :=
  FloatIO (fun b : bool => str (if b then "1.0" else "0.0"))
          (fun w => if teq w (str "1.0") then Some true else if teq w (str "0.0") then Some false else None)
          (fun b : bool => if b then oneBytes else zeroBytes)
          (fun w => if teq w oneBytes then Some true else if teq w zeroBytes then Some false else None).
Lemma bits_ok : @floatsOk bits (fun x => x).
Proof.
  split.
  - intros [|]; (split; [discriminate|]); (split; [repeat constructor; vm_compute; discriminate || reflexivity|]); split; (discriminate || reflexivity).
  - intros [|]; split; reflexivity.
Qed.
Fixpoint insertPos (l : list Z) (i : nat) (s : list nat) : list nat :=
  match s with [] => [i] | j :: r => if nth i l 0 <=? nth j l 0 then i :: s else j :: insertPos l i r end.
Definition sortPos (l : list Z) : list nat := fold_right (insertPos l) [] (seq 0 (List.length l)).
Lemma sortPos_ok : argsortOk sortPos.
Proof.
  intros l. assert (Pm : forall i s, Permutation (insertPos l i s) (i :: s)).
  { intros i. induction s as [|j s IH]; [apply Permutation_refl|]. cbn [insertPos]. destruct (_ <=? _); [apply Permutation_refl|].
    eapply perm_trans; [apply perm_skip, IH|apply perm_swap]. }
  assert (So : forall i s, StronglySorted (fun a b => nth a l 0 <= nth b l 0) s -> StronglySorted (fun a b => nth a l 0 <= nth b l 0) (insertPos l i s)).
  { intros i. induction s as [|j s IH]; intros H; [repeat constructor|]. cbn [insertPos]. inversion H as [|? ? H1 H2]; subst. destruct (Z.leb_spec (nth i l 0) (nth j l 0)) as [Le|Gt].
    - constructor; [exact H|]. constructor; [exact Le|]. eapply Forall_impl; [|exact H2]. cbn. intros a Ha. lia.
    - constructor; [apply IH, H1|]. apply Forall_forall. intros a Ha. apply (Permutation_in _ (Pm i s)) in Ha. destruct Ha as [<-|Ha]; [lia|]. rewrite Forall_forall in H2. apply H2, Ha. }
  unfold sortPos. generalize (seq 0 (List.length l)) as p. induction p as [|i p (IH1 & IH2)]; [split; constructor|]. cbn [fold_right]. split; [|apply So, IH2].
  eapply perm_trans; [apply Pm|apply perm_skip, IH1].
Qed.
(** two triangles of the unit tetrahedron, and a vertex of neither *)
Definition corners : list (point bits) := [(true, true, true); (false, false, false); (true, false, false); (false, true, false); (false, false, true)].
Definition tetra : bgrid bits := BGrid corners [[2; 1; 3]; [1; 2; 4]] [7; 5].
Lemma tetra_ok : gridOk tetra.
Proof.
  split; [reflexivity|]. split; [reflexivity|]. split; [discriminate|]. intros vs [<-|[<-|[]]]; (split; [reflexivity|]); intros v Hv; cbn in Hv; change (0 <= v < 5); lia.
Qed.

(** C130. Importing a Gmsh 2.2 ASCII file with nodes numbered from 1, elements of any types, other sections before, between and after. *)
Theorem C130_import_ascii : forall (io : floatIO) (rnd : V io -> V io) argsort (nodes : list (Z * point io)) elems before between after,
  floatsOk rnd -> argsortOk argsort -> nodes <> [] -> numbered nodes -> triangles elems <> [] -> (forall t, In t (triangles elems) -> triangleOk nodes t) ->
  Forall plainLine before -> Forall plainLine between -> Forall plainLine after ->
  exists g, importGmsh io argsort (asciiFile nodes elems before between after) = Ok g /\ describes (map (roundNode rnd) nodes) (triangles elems) g.
Proof. intros io rnd argsort nodes elems before between after F A. apply (import_ascii F A). Qed.
Print Assumptions C130_import_ascii.
(** C130. The same for binary files. *)
Theorem C130_import_binary : forall (io : floatIO) (rnd : V io -> V io) argsort (nodes : list (Z * point io)) groups before between after,
  floatsOk rnd -> argsortOk argsort -> nodes <> [] -> numbered nodes -> Z.of_nat (List.length nodes) < 2 ^ 31 -> triangles (elementsOf groups) <> [] ->
  Forall groupOk groups -> (forall t, In t (triangles (elementsOf groups)) -> triangleOk nodes t) ->
  Forall plainLine before -> Forall plainLine between -> Forall plainLine after ->
  exists g, importGmsh io argsort (binaryFile nodes groups before between (textLines after)) = Ok g /\ describes nodes (triangles (elementsOf groups)) g.
Proof. intros io rnd argsort nodes groups before between after F A. apply (import_binary F A). Qed.
Print Assumptions C130_import_binary.
Definition fileNodes : list (Z * point bits) := combine [1; 2; 3; 4; 5] corners.
Definition fileElements : list element := [Element 1 15 [0; 1] [1]; Element 2 2 [7; 3] [3; 2; 4]; Element 3 1 [] [1; 2]; Element 9 2 [5] [2; 3; 5]].
Definition fileGroups : list group := [Group 15 2 [Element 1 15 [0; 1] [1]]; Group 2 2 [Element 2 2 [7; 3] [3; 2; 4]; Element 9 2 [5; 3] [2; 3; 5]]].
Lemma physical_plain : Forall plainLine [str "$PhysicalNames"; str "1"; str "2 7 ""lid"""; str "$EndPhysicalNames"].
Proof. repeat (constructor; [split; [discriminate|]; split; [repeat constructor; vm_compute; discriminate || reflexivity|]; split; [vm_compute; discriminate|]; split; [discriminate|]; split; discriminate|]). constructor. Qed.
Example C130_nonvacuous : numbered fileNodes /\ (forall t, In t (triangles fileElements) -> triangleOk fileNodes t) /\
  Forall groupOk fileGroups /\ (forall t, In t (triangles (elementsOf fileGroups)) -> triangleOk fileNodes t) /\
  importGmsh bits sortPos (asciiFile fileNodes fileElements [str "$Comments"] [] [str "$End"]) =
    Ok (GGrid (map snd [nth 2 fileNodes (0, (true, true, true)); nth 1 fileNodes (0, (true, true, true)); nth 3 fileNodes (0, (true, true, true)); nth 4 fileNodes (0, (true, true, true))])
              [[0; 1; 2]; [1; 0; 3]] [3; 2; 4; 5] [2; 9] [7; 5]).
Proof.
  assert (NB : numbered fileNodes).
  { split; [reflexivity|]. intros k n K. do 5 (destruct k as [|k]; [cbn in K; inversion K; subst n; cbn [fst]; lia|]). destruct k; discriminate K. }
  split; [exact NB|]. split.
  { intros t Ht. cbn in Ht. destruct Ht as [<-|[<-|[]]]; (split; [unfold uint32; cbn; lia|]); (split; [eexists; eexists; split; [reflexivity|unfold uint32; lia]|]); (split; [reflexivity|]); intros v Hv; cbn in Hv; cbn; intuition lia. }
  split.
  { repeat constructor; cbn; unfold int32; try discriminate; try lia; try reflexivity; repeat constructor; unfold int32; lia. }
  split.
  { intros t Ht. cbn in Ht. destruct Ht as [<-|[<-|[]]]; (split; [unfold uint32; cbn; lia|]); (split; [eexists; eexists; split; [reflexivity|unfold uint32; lia]|]); (split; [reflexivity|]); intros v Hv; cbn in Hv; cbn; intuition lia. }
  vm_compute. reflexivity.
Qed.

(** C131. export_data_sets of one data set: the file consists of its nodes, elements and data; ids as given, by default 1, 2, ... *)
Definition idsUsed (given : option (list Z)) (n : nat) : list Z := match given with Some l => l | None => numbers n end.
Theorem C131_data_set_ascii : forall (io : floatIO) (s : dataset io) vertex_ids element_ids,
  let v := idsUsed vertex_ids (List.length (g_vertices (s_grid s))) in let e := idsUsed element_ids (List.length (g_elements (s_grid s))) in
  setOk s v e ->
  exportDataSets false [s] vertex_ids element_ids = Ok [([], asciiFile (setNodes s v) (setElements s v e) [] [] (concat (map (@blockLines io) (setBlocks s v e))))].
Proof.
  intros io s vi ei v e H. cbn [exportDataSets writeFiles].
  assert (Ev : match vi with Some x => x | None => range1 (List.length (g_vertices (s_grid s))) end = v) by (unfold v, idsUsed; destruct vi; [reflexivity|apply range1_numbers]).
  assert (Ee : match ei with Some x => x | None => range1 (List.length (g_elements (s_grid s))) end = e) by (unfold e, idsUsed; destruct ei; [reflexivity|apply range1_numbers]).
  rewrite Ev, Ee, (writeFile_ascii H). reflexivity.
Qed.
Print Assumptions C131_data_set_ascii.
Theorem C131_data_set_binary : forall (io : floatIO) (s : dataset io) vertex_ids element_ids,
  let v := idsUsed vertex_ids (List.length (g_vertices (s_grid s))) in let e := idsUsed element_ids (List.length (g_elements (s_grid s))) in
  setOk s v e -> Forall int32 v -> Forall int32 e -> Forall int32 (g_domain_indices (s_grid s)) -> int32 (Z.of_nat (List.length e)) ->
  exportDataSets true [s] vertex_ids element_ids =
    Ok [([], binaryFile (setNodes s v) [Group 2 2 (setElements s v e)] [] [] (concat (map (@blockBytes io) (setBlocks s v e))))].
Proof.
  intros io s vi ei v e H I1 I2 I3 I4. cbn [exportDataSets writeFiles].
  assert (Ev : match vi with Some x => x | None => range1 (List.length (g_vertices (s_grid s))) end = v) by (unfold v, idsUsed; destruct vi; [reflexivity|apply range1_numbers]).
  assert (Ee : match ei with Some x => x | None => range1 (List.length (g_elements (s_grid s))) end = e) by (unfold e, idsUsed; destruct ei; [reflexivity|apply range1_numbers]).
  rewrite Ev, Ee, (writeFile_binary H I1 I2 I3 I4). reflexivity.
Qed.
Print Assumptions C131_data_set_binary.
(** C131. export of a grid, a function or series of functions: the vertices and elements of the grid, ids 1, 2, ..., and the values at
    vertices or elements, with imaginary parts for complex functions.  (The first tags are 0: C133.) *)
Theorem C131_export : forall (io : floatIO) magnitude zeroV binary grids x (o : options io),
  let b := grids (gridOf x) in let at_nodes := negb (o_element o) in
  let n := if at_nodes then List.length (b_vertices b) else List.length (b_elements b) in
  let times := match o_timesteps o with Some t => t | None => [zeroV] end in
  gridOk b -> nonEmpty x -> idsOk b o -> o_transform o = TNone ->
  (forall l, In l (seriesOf x) -> seriesOk (gridOf x) n at_nodes times l) ->
  exportGmsh magnitude zeroV binary grids x o =
    Ok (gridFile binary b (repeat 0 (List.length (b_elements b))) (concat (map (seriesBlocks at_nodes (numbers n) times) (seriesOf x)))).
Proof. intros io magnitude zeroV binary grids x o. apply export_ok. Qed.
Print Assumptions C131_export.
Definition exampleFunction : gfun bits := @GFun bits 0 1 false [[(true, false)]; [(false, true)]; [(true, true)]; [(true, true)]; [(false, false)]] [[(true, false)]; [(false, true)]].
Definition plainOptions : options bits := Options None None true TNone None.
Definition noMagnitude (p : list (V bits * V bits)) : V bits := false.
Example C131_nonvacuous : @seriesOk bits 0 2 false [false : V bits] [exampleFunction] /\
  exportGmsh noMagnitude (false : V bits) false (fun _ => tetra) (ExportFunction exampleFunction) plainOptions = Ok (textLines
    [str "$MeshFormat"; str "2.2 0 8"; str "$EndMeshFormat"; str "$Nodes"; str "5"; str "1 1.0 1.0 1.0"; str "2 0.0 0.0 0.0"; str "3 1.0 0.0 0.0"; str "4 0.0 1.0 0.0"; str "5 0.0 0.0 1.0"; str "$EndNodes";
     str "$Elements"; str "2"; str "1 2 2 0 0 3 2 4"; str "2 2 2 0 0 2 3 5"; str "$EndElements";
     str "$ElementData"; str "1"; str """ (real)"""; str "1"; str "0.0"; str "3"; str "0"; str "1"; str "2"; str "1 1.0"; str "2 0.0"; str "$EndElementData";
     str "$ElementData"; str "1"; str """ (imag)"""; str "1"; str "0.0"; str "3"; str "0"; str "1"; str "2"; str "1 0.0"; str "2 1.0"; str "$EndElementData"]).
Proof.
  split; [|vm_compute; reflexivity]. split; [discriminate|]. split; [apply le_n|]. exists 1, false. intros f [<-|[]]. repeat split.
Qed.

(** C132. Importing an exported ASCII file, with any data, gives the grid (coordinates as printed). *)
Theorem C132_round_trip_ascii : forall (io : floatIO) (rnd : V io -> V io) argsort magnitude zeroV grids x (o : options io),
  let b := grids (gridOf x) in let at_nodes := negb (o_element o) in
  let n := if at_nodes then List.length (b_vertices b) else List.length (b_elements b) in
  let times := match o_timesteps o with Some t => t | None => [zeroV] end in
  floatsOk rnd -> argsortOk argsort -> gridOk b -> nonEmpty x -> idsOk b o -> o_transform o = TNone ->
  (forall l, In l (seriesOf x) -> seriesOk (gridOf x) n at_nodes times l) ->
  exists file g, exportGmsh magnitude zeroV false grids x o = Ok file /\ importGmsh io argsort file = Ok g /\ sameGrid rnd b g.
Proof.
  intros io rnd argsort magnitude zeroV grids x o b at_nodes n times F A G NE I T S. eexists.
  destruct (@import_gridFile_ascii io rnd F argsort A b (repeat 0 (List.length (b_elements b))) (concat (map (seriesBlocks at_nodes (numbers n) times) (seriesOf x)))) as (g & E & H & _).
  - exact G.
  - split; [apply repeat_length|]. split; apply Forall_forall; intros z Hz; apply repeat_spec in Hz; subst z; [unfold int32|unfold uint32]; lia.
  - apply allBlocks_names.
  - exists g. split; [apply export_ok; assumption|]. split; [exact E|exact H].
Qed.
Print Assumptions C132_round_trip_ascii.
(** C132. Importing an exported binary file of a grid gives the grid, coordinates unchanged. *)
Theorem C132_round_trip_binary : forall (io : floatIO) (rnd : V io -> V io) argsort magnitude zeroV grids k (o : options io),
  floatsOk rnd -> argsortOk argsort -> gridOk (grids k) -> idsOk (grids k) o ->
  exists file g, exportGmsh magnitude zeroV true grids (ExportGrid k) o = Ok file /\ importGmsh io argsort file = Ok g /\ sameGrid (fun x => x) (grids k) g.
Proof.
  intros io rnd argsort magnitude zeroV grids k o F A G I. eexists. set (b := grids k) in *.
  destruct (@import_gridFile_binary io rnd F argsort A b (repeat 0 (List.length (b_elements b)))) as (g & E & H & _).
  - exact G.
  - split; [apply repeat_length|]. split; apply Forall_forall; intros z Hz; apply repeat_spec in Hz; subst z; [unfold int32|unfold uint32]; lia.
  - exists g. split; [|split; [exact E|exact H]].
    assert (X : exportGmsh magnitude zeroV true grids (ExportGrid k) o = exportGmsh magnitude zeroV true grids (ExportGrid k) (Options (o_vids o) (o_eids o) (o_element o) (@TNone io) (o_timesteps o))) by reflexivity.
    rewrite X. rewrite export_ok; [reflexivity|exact G|exact Logic.I|exact I|reflexivity|intros l []].
Qed.
Print Assumptions C132_round_trip_binary.
Example C132_nonvacuous : floatsOk (io := bits) (fun x => x) /\ argsortOk sortPos /\ gridOk tetra /\ idsOk tetra plainOptions /\
  exists file, exportGmsh noMagnitude (false : V bits) true (fun _ => tetra) (ExportGrid 0) plainOptions = Ok file /\
  importGmsh bits sortPos file = Ok (GGrid [nth 2 corners (true, true, true); nth 1 corners (true, true, true); nth 3 corners (true, true, true); nth 4 corners (true, true, true)] [[0; 1; 2]; [1; 0; 3]] [3; 2; 4; 5] [1; 2] [0; 0]).
Proof.
  split; [exact bits_ok|]. split; [exact sortPos_ok|]. split; [exact tetra_ok|]. split; [intros l E; discriminate E|].
  eexists. split; [vm_compute; reflexivity|]. vm_compute. reflexivity.
Qed.

(** C133. Domain indices: they should survive export and import. *)
Definition domainsSurvive (io : floatIO) (rnd : V io -> V io) argsort magnitude zeroV (b : bgrid io) : Prop :=
  exists file g, exportGmsh magnitude zeroV false (fun _ => b) (ExportGrid 0) (Options None None false (@TNone io) None) = Ok file /\
  importGmsh io argsort file = Ok g /\ sameGrid rnd b g /\ g_domain_indices g = b_domains b.
(** The code violates this: export passes no domain indices (general_interface.py 843-844), every one is read back as 0. *)
Theorem C133_domain_indices_refuted :
  ~ (forall (io : floatIO) (rnd : V io -> V io) argsort magnitude zeroV b, floatsOk rnd -> argsortOk argsort -> gridOk b -> domsOk b (b_domains b) ->
     domainsSurvive rnd argsort magnitude zeroV b).
Proof.
  intros H. destruct (H bits (fun x => x) sortPos noMagnitude false tetra bits_ok sortPos_ok tetra_ok) as (file & g & E & M & _ & D).
  - split; [reflexivity|]. split; repeat constructor; lia.
  - destruct (import_gridFile_ascii (b := tetra) (doms := [0; 0]) (blocks := []) bits_ok sortPos_ok tetra_ok) as (g' & M' & _ & D').
    + split; [reflexivity|]. split; repeat constructor; lia.
    + constructor.
    + rewrite export_ok in E; [|exact tetra_ok|exact Logic.I|intros l X; discriminate X|reflexivity|intros l []].
      injection E as <-. cbn [gridOf seriesOf map concat List.length b_elements tetra repeat] in M. change (importGmsh bits sortPos (gridFile false tetra [0; 0] []) = Ok g) in M.
      rewrite M' in M. injection M as <-. rewrite D' in D. discriminate D.
Qed.
Print Assumptions C133_domain_indices_refuted.
(** They survive if they are all 0; and in a data set that has them, they are written (C131) and read back. *)
Theorem C133_domain_indices_partial : forall (io : floatIO) (rnd : V io -> V io) argsort magnitude zeroV b, floatsOk rnd -> argsortOk argsort -> gridOk b ->
  b_domains b = repeat 0 (List.length (b_elements b)) -> domainsSurvive rnd argsort magnitude zeroV b.
Proof.
  intros io rnd argsort magnitude zeroV b F A G D. eexists.
  destruct (@import_gridFile_ascii io rnd F argsort A b (repeat 0 (List.length (b_elements b))) []) as (g & E & H & Dg).
  - exact G.
  - split; [apply repeat_length|]. split; apply Forall_forall; intros z Hz; apply repeat_spec in Hz; subst z; [unfold int32|unfold uint32]; lia.
  - constructor.
  - exists g. rewrite D. split; [|split; [exact E|split; [exact H|exact Dg]]].
    rewrite export_ok; [reflexivity|exact G|exact Logic.I|intros l X; discriminate X|reflexivity|intros l []].
Qed.
Print Assumptions C133_domain_indices_partial.
(** A file with the right tags would be read correctly. *)
Theorem C133_import_partial : forall (io : floatIO) (rnd : V io -> V io) argsort (b : bgrid io), floatsOk rnd -> argsortOk argsort -> gridOk b -> domsOk b (b_domains b) ->
  exists g, importGmsh io argsort (gridFile false b (b_domains b) []) = Ok g /\ sameGrid rnd b g /\ g_domain_indices g = b_domains b.
Proof. intros io rnd argsort b F A G D. apply (import_gridFile_ascii F A G D). constructor. Qed.
Print Assumptions C133_import_partial.
Example C133_nonvacuous : domsOk tetra (b_domains tetra) /\ b_domains (BGrid corners (b_elements tetra) [0; 0]) = repeat 0 2 /\ gridOk (BGrid corners (b_elements tetra) [0; 0]).
Proof. split; [split; [reflexivity|]; split; repeat constructor; lia|]. split; [reflexivity|exact tetra_ok]. Qed.

(** C134. vertex_ids and element_ids given to export: they should be the ids in the file. *)
Definition fileIds (io : floatIO) (b : bgrid io) (vids eids : list Z) : text :=
  asciiFile (combine vids (b_vertices b))
            (map (fun x => let '(id, vs) := x in Element id 2 [0; 0] (map (fun v => nth (Z.to_nat v) vids 0) vs)) (combine eids (b_elements b))) [] [] [].
Theorem C134_ids_refuted :
  ~ (forall (io : floatIO) magnitude zeroV (b : bgrid io) vids eids, gridOk b -> List.length vids = List.length (b_vertices b) -> List.length eids = List.length (b_elements b) ->
     NoDup vids -> NoDup eids -> Forall uint32 vids -> Forall uint32 eids ->
     exportGmsh magnitude zeroV false (fun _ => b) (ExportGrid 0) (Options (Some vids) (Some eids) false (@TNone io) None) = Ok (fileIds b vids eids)).
Proof.
  intros H. specialize (H bits noMagnitude false tetra [11; 12; 13; 14; 15] [21; 22] tetra_ok eq_refl eq_refl).
  assert (NDv : NoDup [11; 12; 13; 14; 15]) by (repeat (constructor; [cbn; lia|]); constructor). assert (NDe : NoDup [21; 22]) by (repeat (constructor; [cbn; lia|]); constructor).
  assert (U1 : Forall uint32 [11; 12; 13; 14; 15]) by (repeat (constructor; [unfold uint32; lia|]); constructor). assert (U2 : Forall uint32 [21; 22]) by (repeat (constructor; [unfold uint32; lia|]); constructor).
  specialize (H NDv NDe U1 U2). vm_compute in H. discriminate H.
Qed.
Print Assumptions C134_ids_refuted.
(** Given ids do not influence the file, except that a wrong number of vertex ids raises; so 1, 2, ... are in the file. *)
Theorem C134_ids_partial : forall (io : floatIO) magnitude zeroV (b : bgrid io), gridOk b ->
  exportGmsh magnitude zeroV false (fun _ => b) (ExportGrid 0)
    (Options (Some (numbers (List.length (b_vertices b)))) (Some (numbers (List.length (b_elements b)))) false (@TNone io) None) =
  Ok (fileIds b (numbers (List.length (b_vertices b))) (numbers (List.length (b_elements b)))).
Proof.
  intros io magnitude zeroV b G. rewrite export_ok; [|exact G|exact Logic.I| |reflexivity|intros l []].
  - f_equal. unfold gridFile, fileIds, gridNodes. cbn [gridOf seriesOf map concat]. f_equal. unfold gridElements.
    assert (R : forall (ids : list Z) (es : list (list Z)), (forall vs, In vs es -> forall v, In v vs -> 0 <= v < Z.of_nat (List.length (b_vertices b))) ->
      map (fun x => let '(id, (dom, vs)) := x in Element id 2 [dom; 0] (map (fun v => v + 1) vs)) (combine ids (combine (repeat 0 (List.length es)) es)) =
      map (fun x => let '(id, vs) := x in Element id 2 [0; 0] (map (fun v => nth (Z.to_nat v) (numbers (List.length (b_vertices b))) 0) vs)) (combine ids es)).
    { intros ids es. revert ids. induction es as [|vs es IH]; intros ids H; [destruct ids; reflexivity|]. destruct ids as [|i ids]; [reflexivity|]. cbn [List.length repeat combine map].
      rewrite IH by (intros w Hw; apply H; now right). f_equal. f_equal. apply map_ext_in. intros v Hv. specialize (H vs (or_introl eq_refl) v Hv).
      rewrite (nth_error_nth _ _ _ (@numbers_nth (List.length (b_vertices b)) (Z.to_nat v) ltac:(lia))). lia. }
    apply R. intros vs Hvs v Hv. destruct G as (_ & _ & _ & G4). apply (G4 vs Hvs), Hv.
  - intros l E. inversion E. apply numbers_length.
Qed.
Print Assumptions C134_ids_partial.
Theorem C134_ids_ignored : forall (io : floatIO) magnitude zeroV (b : bgrid io) vids eids, gridOk b -> List.length vids = List.length (b_vertices b) ->
  exportGmsh magnitude zeroV false (fun _ => b) (ExportGrid 0) (Options (Some vids) eids false (@TNone io) None) =
  exportGmsh magnitude zeroV false (fun _ => b) (ExportGrid 0) (Options None None false (@TNone io) None).
Proof.
  intros io magnitude zeroV b vids eids G L. rewrite !export_ok; try exact G; try exact Logic.I; try reflexivity; try (cbn [seriesOf]; intros l Hl; destruct Hl; fail).
  all: intros l E; cbn [o_vids] in E; inversion E; subst; exact L.
Qed.
Print Assumptions C134_ids_ignored.

(** C135. Binary files, the default, with data: they should be read back like those without. *)
Theorem C135_binary_data_refuted :
  ~ (forall (io : floatIO) (rnd : V io -> V io) argsort magnitude zeroV grids x (o : options io),
     let b := grids (gridOf x) in let at_nodes := negb (o_element o) in
     let n := if at_nodes then List.length (b_vertices b) else List.length (b_elements b) in
     let times := match o_timesteps o with Some t => t | None => [zeroV] end in
     floatsOk rnd -> argsortOk argsort -> gridOk b -> nonEmpty x -> idsOk b o -> o_transform o = TNone ->
     (forall l, In l (seriesOf x) -> seriesOk (gridOf x) n at_nodes times l) ->
     exists file g, exportGmsh magnitude zeroV true grids x o = Ok file /\ importGmsh io argsort file = Ok g /\ sameGrid (fun x => x) b g).
Proof.
  intros H. destruct (H bits (fun x => x) sortPos noMagnitude false (fun _ => tetra) (ExportFunction exampleFunction) plainOptions bits_ok sortPos_ok tetra_ok Logic.I) as (file & g & E & M & _).
  - intros l E. discriminate E.
  - reflexivity.
  - intros l [<-|[]]. split; [discriminate|]. split; [apply le_n|]. exists 1, false. intros f [<-|[]]. repeat split.
  - vm_compute in E. inversion E; subst file. vm_compute in M. discriminate M.
Qed.
Print Assumptions C135_binary_data_refuted.
(** Proved: without data, and with lines of text after the elements. *)
Theorem C135_binary_data_partial : forall (io : floatIO) (rnd : V io -> V io) argsort magnitude zeroV grids k (o : options io),
  floatsOk rnd -> argsortOk argsort -> gridOk (grids k) -> idsOk (grids k) o ->
  exists file g, exportGmsh magnitude zeroV true grids (ExportGrid k) o = Ok file /\ importGmsh io argsort file = Ok g /\ sameGrid (fun x => x) (grids k) g.
Proof. exact C132_round_trip_binary. Qed.
Print Assumptions C135_binary_data_partial.

(** C136. A series of functions: the values of every function should be in the file, imaginary parts too, with default time steps too. *)
Definition seriesWritten (io : floatIO) (b : bgrid io) (times : list (V io)) (l : list (gfun io)) : text :=
  gridFile false b (repeat 0 (List.length (b_elements b))) (seriesBlocks true (numbers (List.length (b_vertices b))) times l).
Definition onVertices (io : floatIO) (times : option (list (V io))) : options io := Options None None false (@TNone io) times.
Theorem C136_series_refuted :
  ~ (forall (io : floatIO) magnitude zeroV (b : bgrid io) l, gridOk b -> l <> [] ->
     (forall f, In f l -> f_grid f = 0%nat /\ f_comp f = 1 /\ List.length (f_onvertices f) = List.length (b_vertices b)) ->
     exists times, exportGmsh magnitude zeroV false (fun _ => b) (ExportSeries [l]) (onVertices None) = Ok (seriesWritten b times l)).
Proof.
  intros H. destruct (H bits noMagnitude false tetra [exampleFunction; exampleFunction] tetra_ok) as (times & E).
  - discriminate.
  - intros f [<-|[<-|[]]]; repeat split.
  - assert (Y : exportGmsh noMagnitude (false : V bits) false (fun _ => tetra) (ExportSeries [[exampleFunction; exampleFunction]]) (onVertices None) = Raise) by (vm_compute; reflexivity).
    rewrite Y in E. discriminate E.
Qed.
Print Assumptions C136_series_refuted.
(** The type of the first function decides: imaginary parts of later functions are dropped. *)
Definition realFunction : gfun bits := @GFun bits 0 1 true [[(true, false)]; [(false, false)]; [(true, false)]; [(true, false)]; [(false, false)]] [[(true, false)]; [(false, false)]].
Theorem C136_mixed_types_refuted :
  ~ (forall (io : floatIO) magnitude zeroV (b : bgrid io) times l, gridOk b -> l <> [] -> (List.length l <= List.length times)%nat ->
     (forall f, In f l -> f_grid f = 0%nat /\ f_comp f = 1 /\ List.length (f_onvertices f) = List.length (b_vertices b)) ->
     exportGmsh magnitude zeroV false (fun _ => b) (ExportSeries [l]) (onVertices (Some times)) = Ok (seriesWritten b times l)).
Proof.
  intros H. specialize (H bits noMagnitude false tetra [false; true] [realFunction; exampleFunction] tetra_ok ltac:(discriminate) (le_n _)).
  assert (P : forall f, In f [realFunction; exampleFunction] -> f_grid f = 0%nat /\ f_comp f = 1 /\ List.length (f_onvertices f) = List.length (b_vertices tetra)) by (intros f [<-|[<-|[]]]; repeat split).
  specialize (H P). vm_compute in H. discriminate H.
Qed.
Print Assumptions C136_mixed_types_refuted.
(** Proved: a time for each function is given, or there is one function; functions of one type. *)
Theorem C136_series_partial : forall (io : floatIO) magnitude zeroV (b : bgrid io) times l isreal, gridOk b -> l <> [] -> (List.length l <= List.length times)%nat ->
  (forall f, In f l -> f_grid f = 0%nat /\ f_comp f = 1 /\ f_isreal f = isreal /\ List.length (f_onvertices f) = List.length (b_vertices b)) ->
  exportGmsh magnitude zeroV false (fun _ => b) (ExportSeries [l]) (onVertices (Some times)) = Ok (seriesWritten b times l) /\
  (List.length l = 1%nat -> exportGmsh magnitude zeroV false (fun _ => b) (ExportSeries [l]) (onVertices None) = Ok (seriesWritten b [zeroV] l)).
Proof.
  intros io magnitude zeroV b times l isreal G N L H.
  assert (G0 : gridOf (ExportSeries [l]) = 0%nat). { destruct l as [|f l]; [congruence|]. apply (H f (or_introl eq_refl)). }
  assert (S : forall ts, (List.length l <= List.length ts)%nat -> forall m, In m (seriesOf (ExportSeries [l])) -> seriesOk (gridOf (ExportSeries [l])) (List.length (b_vertices b)) true ts m).
  { intros ts Lt m [<-|[]]. split; [exact N|]. split; [exact Lt|]. exists 1, isreal. rewrite G0. intros f Hf. destruct (H f Hf) as (H1 & H2 & H3 & H4). split; [exact H1|]. split; [exact H2|]. split; [exact H3|exact H4]. }
  split; [|intros L1]; (rewrite export_ok; [|exact G|discriminate|intros v E; discriminate E|reflexivity|]).
  - cbn [seriesOf map concat]. rewrite app_nil_r. reflexivity.
  - apply S, L.
  - cbn [seriesOf map concat]. rewrite app_nil_r. reflexivity.
  - apply S. cbn. lia.
Qed.
Print Assumptions C136_series_partial.
Example C136_nonvacuous : forall f, In f [exampleFunction; exampleFunction] -> f_grid f = 0%nat /\ f_comp f = 1 /\ f_isreal f = false /\ List.length (f_onvertices f) = List.length (b_vertices tetra).
Proof. intros f [<-|[<-|[]]]; repeat split. Qed.

(** C137. The transformation: the file should contain the transformed values. *)
Definition transformedFile (io : floatIO) magnitude zeroV (b : bgrid io) (t : transformation io) (at_nodes : bool) (f : gfun io) : text :=
  let n := if at_nodes then List.length (b_vertices b) else List.length (b_elements b) in
  gridFile false b (repeat 0 (List.length (b_elements b))) (seriesBlocks at_nodes (numbers n) [zeroV] [appliedAll magnitude zeroV t at_nodes f]).
Definition valuesGiven (io : floatIO) (b : bgrid io) (at_nodes : bool) (f : gfun io) : Prop :=
  f_grid f = 0%nat /\ List.length (valuesOf at_nodes f) = (if at_nodes then List.length (b_vertices b) else List.length (b_elements b)) /\
  Forall (fun p => Z.of_nat (List.length p) = f_comp f) (valuesOf at_nodes f).
Theorem C137_transformation_refuted :
  ~ (forall (io : floatIO) magnitude zeroV (b : bgrid io) at_nodes f, gridOk b -> valuesGiven b at_nodes f ->
     exportGmsh magnitude zeroV false (fun _ => b) (ExportFunction f) (Options None None (negb at_nodes) (@TMagnitude io) None) =
     Ok (transformedFile magnitude zeroV b (@TMagnitude io) at_nodes f)).
Proof.
  intros H. specialize (H bits noMagnitude false tetra false (@GFun bits 0 3 true [] [[(true, false); (false, false); (false, false)]; [(true, false); (false, false); (true, false)]]) tetra_ok).
  assert (P : valuesGiven tetra false (@GFun bits 0 3 true [] [[(true, false); (false, false); (false, false)]; [(true, false); (false, false); (true, false)]])).
  { split; [reflexivity|]. split; [reflexivity|]. repeat constructor. }
  specialize (H P). vm_compute in H. discriminate H.
Qed.
Print Assumptions C137_transformation_refuted.
(** Proved: every transformation that gives as many components as the function has, and a value for each point. *)
Theorem C137_transformation_partial : forall (io : floatIO) magnitude zeroV (b : bgrid io) at_nodes t f, gridOk b -> f_grid f = 0%nat ->
  componentsAfter t (f_comp f) (valuesOf at_nodes f) = f_comp f ->
  List.length (valuesOf at_nodes (applied magnitude zeroV t f)) = (if at_nodes then List.length (b_vertices b) else List.length (b_elements b)) ->
  exportGmsh magnitude zeroV false (fun _ => b) (ExportFunction f) (Options None None (negb at_nodes) t None) = Ok (transformedFile magnitude zeroV b t at_nodes f).
Proof.
  intros io magnitude zeroV b at_nodes t f G Hg C L. rewrite export_transform.
  - cbn [onFunctions o_transform]. rewrite export_ok; [|exact G|exact Logic.I|intros v E; discriminate E|reflexivity|].
    + unfold transformedFile. cbn [untransformed o_element o_timesteps gridOf seriesOf map concat]. rewrite negb_involutive, app_nil_r.
      assert (E : appliedAll magnitude zeroV t at_nodes f = applied magnitude zeroV t f) by (unfold appliedAll, applied; rewrite C; reflexivity). rewrite E. reflexivity.
    + intros l [<-|[]]. cbn [untransformed o_element o_timesteps gridOf]. rewrite negb_involutive. split; [discriminate|]. split; [apply le_n|].
      exists (f_comp f), (f_isreal f). intros g [<-|[]]. split; [reflexivity|]. split; [reflexivity|]. split; [reflexivity|exact L].
  - cbn [o_transform o_element seriesOf]. rewrite negb_involutive. intros l g [<-|[]] [<-|[]]. exact C.
Qed.
Print Assumptions C137_transformation_partial.
(** In particular real and imaginary parts of any function, and the modes 'abs', 'abs_squared', 'log_abs' of scalar functions. *)
Theorem C137_modes_partial : forall (io : floatIO) magnitude zeroV (b : bgrid io) at_nodes t f, gridOk b -> valuesGiven b at_nodes f ->
  t = TReal \/ t = TImag \/ t = TNone \/ (t = TMagnitude /\ f_comp f = 1) ->
  exportGmsh magnitude zeroV false (fun _ => b) (ExportFunction f) (Options None None (negb at_nodes) t None) = Ok (transformedFile magnitude zeroV b t at_nodes f).
Proof.
  intros io magnitude zeroV b at_nodes t f G (H1 & H2 & _) T. apply C137_transformation_partial; [exact G|exact H1| |].
  - destruct T as [-> |[-> |[-> |(-> & E)]]]; cbn [componentsAfter]; congruence.
  - rewrite <- H2. destruct T as [-> |[-> |[-> |(-> & E)]]]; destruct at_nodes; cbn [valuesOf applied f_onvertices f_onelements pointwise]; rewrite ?map_length; reflexivity.
Qed.
Print Assumptions C137_modes_partial.
(** With several components the three modes always raise an exception. *)
Theorem C137_components_raise : forall (io : floatIO) magnitude zeroV binary (b : bgrid io) at_nodes f, f_comp f <> 1 ->
  exportGmsh magnitude zeroV binary (fun _ => b) (ExportFunction f) (Options None None (negb at_nodes) TMagnitude None) = Raise.
Proof.
  intros io magnitude zeroV binary b at_nodes f N. unfold exportGmsh. cbn [exportedDataSet]. unfold objectToDataSet, genericGrid. cbn [o_vids o_eids o_element o_transform bind].
  assert (E : forall n values, seriesData magnitude zeroV (f_grid f) n TMagnitude values [f] = Raise).
  { intros n values. unfold seriesData. cbn [hd_error get bind addAll]. rewrite Nat.eqb_refl. cbn [negb transform]. unfold addData. cbn [c_comp c_points].
    destruct (Z.eqb_spec 1 (f_comp f)); [congruence|]. reflexivity. }
  destruct at_nodes; cbn [negb mapM]; rewrite E; reflexivity.
Qed.
Print Assumptions C137_components_raise.
Example C137_nonvacuous : valuesGiven tetra true exampleFunction /\ valuesGiven tetra false exampleFunction.
Proof. split; (split; [reflexivity|]); (split; [reflexivity|]); repeat constructor. Qed.

(** C138. Several data sets: file number k should say what data set k says, with the given or the default ids. *)
Definition filesOf (io : floatIO) (binary : bool) (l : list (dataset io)) (vids eids : option (list Z)) : list (text * text) :=
  map (fun p => (zstr (Z.of_nat (fst p)), fileOf binary (snd p) (idsUsed vids (List.length (g_vertices (s_grid (snd p))))) (idsUsed eids (List.length (g_elements (s_grid (snd p)))))))
      (combine (seq 0 (List.length l)) l).
Definition setFits (io : floatIO) (binary : bool) (vids eids : option (list Z)) (s : dataset io) : Prop :=
  let v := idsUsed vids (List.length (g_vertices (s_grid s))) in let e := idsUsed eids (List.length (g_elements (s_grid s))) in setOk s v e /\ fits binary s v e.
Theorem C138_several_data_sets_refuted :
  ~ (forall (io : floatIO) binary (l : list (dataset io)) vids eids, (2 <= List.length l)%nat -> Forall (setFits binary vids eids) l ->
     exportDataSets binary l vids eids = Ok (filesOf binary l vids eids)).
Proof.
  intros H. pose (big := Dataset (GGrid corners [[2; 1; 3]; [1; 2; 4]] [] [] [0; 0]) [] [] ([] : list (V bits))). pose (small := Dataset (@GGrid bits [(false, false, false); (true, false, false); (false, true, false)] [[0; 1; 2]] [] [] [0]) [] [] ([] : list (V bits))).
  specialize (H bits false [small; big] None None (le_n 2)).
  assert (P : Forall (setFits false None None) [small; big]).
  { constructor; [|constructor; [|constructor]]; (split; [constructor; cbn; try reflexivity; try (intros d Hd; destruct Hd; fail) |intros X; discriminate X]).
    - intros vs [<-|[]]. split; [reflexivity|]. intros v Hv. cbn in Hv. intuition lia.
    - intros vs [<-|[<-|[]]]; (split; [reflexivity|]); intros v Hv; cbn in Hv; intuition lia. }
  specialize (H P). vm_compute in H. discriminate H.
Qed.
Print Assumptions C138_several_data_sets_refuted.
(** Proved: ids are given, or all data sets have as many vertices and elements. *)
Theorem C138_several_data_sets_partial : forall (io : floatIO) binary (l : list (dataset io)) vids eids, (2 <= List.length l)%nat -> Forall (setFits binary vids eids) l ->
  (vids <> None \/ exists n, forall s, In s l -> List.length (g_vertices (s_grid s)) = n) ->
  (eids <> None \/ exists n, forall s, In s l -> List.length (g_elements (s_grid s)) = n) ->
  exportDataSets binary l vids eids = Ok (filesOf binary l vids eids).
Proof.
  intros io binary l vids eids L2 H Hv He. destruct l as [|s [|s2 l]]; cbn in L2; try lia.
  set (v := idsUsed vids (List.length (g_vertices (s_grid s)))). set (e := idsUsed eids (List.length (g_elements (s_grid s)))).
  assert (Ev : match vids with Some x => x | None => range1 (List.length (g_vertices (s_grid s))) end = v) by (unfold v, idsUsed; destruct vids; [reflexivity|apply range1_numbers]).
  assert (Ee : match eids with Some x => x | None => range1 (List.length (g_elements (s_grid s))) end = e) by (unfold e, idsUsed; destruct eids; [reflexivity|apply range1_numbers]).
  set (all := s :: s2 :: l) in *.
  assert (Sv : forall t, In t all -> idsUsed vids (List.length (g_vertices (s_grid t))) = v).
  { intros t Ht. unfold v, idsUsed. destruct vids; [reflexivity|]. destruct Hv as [X|(n & Hn)]; [congruence|]. rewrite (Hn t Ht), (Hn s (or_introl eq_refl)). reflexivity. }
  assert (Se : forall t, In t all -> idsUsed eids (List.length (g_elements (s_grid t))) = e).
  { intros t Ht. unfold e, idsUsed. destruct eids; [reflexivity|]. destruct He as [X|(n & Hn)]; [congruence|]. rewrite (Hn t Ht), (Hn s (or_introl eq_refl)). reflexivity. }
  assert (P : forall t, In t all -> setOk t v e /\ fits binary t v e).
  { intros t Ht. rewrite Forall_forall in H. specialize (H t Ht). unfold setFits in H. rewrite (Sv t Ht), (Se t Ht) in H. exact H. }
  assert (E : exportDataSets binary all vids eids = writeFiles binary 0 true all (Some v) (Some e)).
  { unfold all. cbn [exportDataSets writeFiles]. rewrite Ev, Ee. reflexivity. }
  rewrite E, writeFiles_ok by exact P. unfold filesOf. rewrite enum_combine. f_equal. apply map_ext_in. intros (k & t) Hkt. cbn [fst snd]. rewrite (Sv t), (Se t) by (eapply in_combine_r, Hkt). reflexivity.
Qed.
Print Assumptions C138_several_data_sets_partial.
Example C138_nonvacuous : let s := Dataset (GGrid corners [[2; 1; 3]; [1; 2; 4]] [] [] [7; 0]) [Data (str "u") [@Array bits 1 [[true]; [true]; [false]; [true]; [false]]] None] [] ([true] : list (V bits)) in
  Forall (setFits true None (Some [8; 9])) [s; s].
Proof.
  intros s. assert (P : setFits true None (Some [8; 9]) s); [|constructor; [exact P|constructor; [exact P|constructor]]].
  split.
  - constructor; cbn; try reflexivity.
    + intros vs [<-|[<-|[]]]; (split; [reflexivity|]); intros v Hv; cbn in Hv; intuition lia.
    + intros d [<-|[]]. split; [cbn; lia|]. split; [intros im E; discriminate E|]. split; [intros a [<-|[]]; reflexivity|]. right. vm_compute. reflexivity.
    + intros d [].
  - intros _. split; [apply numbers_int32; cbn; lia|]. repeat split; repeat constructor; unfold int32; cbn; lia.
Qed.

(** C139. A file whose triangles refer to nodes it does not have should be rejected. *)
Definition dangling (io : floatIO) (nodes : list (Z * point io)) (es : list element) : Prop :=
  exists t v, In t (triangles es) /\ In v (e_nodes t) /\ ~ In v (map fst nodes).
Theorem C139_dangling_refuted :
  ~ (forall (io : floatIO) (rnd : V io -> V io) argsort (nodes : list (Z * point io)) es, floatsOk rnd -> argsortOk argsort -> nodes <> [] -> numbered nodes ->
     (forall t, In t (triangles es) -> triangleForm t) -> dangling nodes es -> forall g, importGmsh io argsort (asciiFile nodes es [] [] []) <> Ok g).
Proof.
  intros H. assert (F3 : forall t, In t (triangles [Element 1 2 [0] [1; 2; 0]]) -> triangleForm t).
  { intros t [<-|[]]. split; [unfold uint32; cbn; lia|]. split; [exists 0, []; split; [reflexivity|unfold uint32; lia]|reflexivity]. }
  assert (D : dangling fileNodes [Element 1 2 [0] [1; 2; 0]]).
  { exists (Element 1 2 [0] [1; 2; 0]), 0. split; [left; reflexivity|]. split; [cbn; tauto|]. cbn. intuition discriminate. }
  specialize (H bits (fun x => x) sortPos fileNodes [Element 1 2 [0] [1; 2; 0]] bits_ok sortPos_ok ltac:(discriminate) (proj1 C130_nonvacuous) F3 D).
  destruct (importGmsh bits sortPos (asciiFile fileNodes [Element 1 2 [0] [1; 2; 0]] [] [] [])) as [g| |] eqn:E; [exact (H g eq_refl)| |]; vm_compute in E; discriminate E.
Qed.
Print Assumptions C139_dangling_refuted.
(** Proved: ids above the number N of nodes, and ids of at most -N, are rejected; ids from 1 - N to 0 count from the end. *)
Theorem C139_dangling_partial : forall (io : floatIO) (rnd : V io -> V io) argsort (nodes : list (Z * point io)) es before between after, floatsOk rnd -> nodes <> [] -> numbered nodes ->
  (forall t, In t (triangles es) -> triangleForm t) -> Forall plainLine before -> Forall plainLine between -> Forall plainLine after ->
  (exists t v, In t (triangles es) /\ In v (e_nodes t) /\ (v <= - Z.of_nat (List.length nodes) \/ Z.of_nat (List.length nodes) < v)) ->
  importGmsh io argsort (asciiFile nodes es before between after) = Raise.
Proof.
  intros io rnd argsort nodes es before between after F N NU T P1 P2 P3 (t & v & It & Iv & R).
  assert (E : importGmsh io argsort (asciiFile nodes es before between after) = createGrid argsort (Parsed (Some (map (roundNode rnd) nodes)) (Some (map triangleData (triangles es))) false (Some 8))).
  { unfold importGmsh. rewrite (parse_ascii F N NU T P1 P2 P3). reflexivity. }
  assert (X := @import_ends io argsort (asciiFile nodes es before between after)). rewrite E in *. rewrite <- (map_length (roundNode rnd)) in R.
  assert (D := create_dangling (argsort := argsort) (b := false) (sz := Some 8) It Iv R).
  destruct (createGrid argsort (Parsed (Some (map (roundNode rnd) nodes)) (Some (map triangleData (triangles es))) false (Some 8))) as [g| |]; [destruct (D g eq_refl)|reflexivity|congruence].
Qed.
Print Assumptions C139_dangling_partial.
Theorem C139_dangling_binary_partial : forall (io : floatIO) (rnd : V io -> V io) argsort (nodes : list (Z * point io)) gs before between after, floatsOk rnd -> numbered nodes ->
  Z.of_nat (List.length nodes) < 2 ^ 31 -> Forall groupOk gs -> (forall t, In t (triangles (elementsOf gs)) -> triangleForm t) -> Forall plainLine before -> Forall plainLine between -> Forall plainLine after ->
  (exists t v, In t (triangles (elementsOf gs)) /\ In v (e_nodes t) /\ (v <= - Z.of_nat (List.length nodes) \/ Z.of_nat (List.length nodes) < v)) ->
  importGmsh io argsort (binaryFile nodes gs before between (textLines after)) = Raise.
Proof.
  intros io rnd argsort nodes gs before between after F NU L G T P1 P2 P3 (t & v & It & Iv & R).
  assert (E : importGmsh io argsort (binaryFile nodes gs before between (textLines after)) = createGrid argsort (Parsed (Some nodes) (Some (map triangleData (triangles (elementsOf gs)))) true (Some 8))).
  { unfold importGmsh. rewrite (parse_binary F NU L G T P1 P2 P3). reflexivity. }
  assert (X := @import_ends io argsort (binaryFile nodes gs before between (textLines after))). rewrite E in *.
  assert (D := create_dangling (argsort := argsort) (b := true) (sz := Some 8) It Iv R).
  destruct (createGrid argsort (Parsed (Some nodes) (Some (map triangleData (triangles (elementsOf gs)))) true (Some 8))) as [g| |]; [destruct (D g eq_refl)|reflexivity|congruence].
Qed.
Print Assumptions C139_dangling_binary_partial.

(** C140. Importing ends on every sequence of bytes, with a grid structure or an exception. *)
Theorem C140_import_ends : forall (io : floatIO) argsort (f : text), importGmsh io argsort f = Raise \/ exists g, importGmsh io argsort f = Ok g.
Proof. intros io argsort f. assert (X := @import_ends io argsort f). destruct (importGmsh io argsort f) as [g| |]; [right; exists g; reflexivity|now left|congruence]. Qed.
Print Assumptions C140_import_ends.
Example C140_nonvacuous : importGmsh bits sortPos (str "$Elements") = Raise /\ importGmsh bits sortPos [] = Raise.
Proof. split; vm_compute; reflexivity. Qed.
