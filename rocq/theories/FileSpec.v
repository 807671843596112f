(** What a Gmsh 2.2 file says, and what it means to import one.  Uses from the model only the types of texts, grids and data sets,
    the decimal notation [zstr] of integers (Coq's library) and Python's numbers ([floatIO]). *)
From Coq Require Import List ZArith Bool Ascii String Sorted.
From Verif Require Import Base FileModel.
Import ListNotations.
Set Implicit Arguments.
Unset Strict Implicit.
Local Open Scope Z_scope.

(** text lines: each ends with a line feed; words are separated by one blank *)
Definition textLine (l : text) : text := l ++ [chr 10].
Definition textLines (ls : list text) : text := concat (map textLine ls).
Fixpoint sentence (ws : list text) : text := match ws with [] => [] | [w] => w | w :: r => w ++ [chr 32] ++ sentence r end.
(** the four bytes of a 32 bit integer, lowest first, two's complement *)
Definition bytes4 (z : Z) : text := let u := z mod 2 ^ 32 in map (fun k => chr (u / 256 ^ k mod 256)) [0; 1; 2; 3].
Definition int32 (z : Z) : Prop := - 2 ^ 31 <= z < 2 ^ 31.
Definition uint32 (z : Z) : Prop := 0 <= z < 2 ^ 32.

Section Spec.
Variable io : floatIO.
Notation V := (V io).
Notation point := (point io).

(** elements of any type; a data section: at nodes or elements, name, time, number of the time step, number of components, values by id *)
Record element := Element { e_id : Z; e_type : Z; e_tags : list Z; e_nodes : list Z }.
Record block := Block { b_at_nodes : bool; b_name : text; b_time : V; b_step : Z; b_components : Z; b_values : list (Z * list V) }.

(** ASCII *)
Definition nodeLine (n : Z * point) : text := let '(i, (x, y, z)) := n in sentence [zstr i; fstr io x; fstr io y; fstr io z].
Definition elementLine (e : element) : text :=
  sentence ([zstr (e_id e); zstr (e_type e); zstr (Z.of_nat (List.length (e_tags e)))] ++ map zstr (e_tags e) ++ map zstr (e_nodes e)).
Definition blockHead (b : block) : list text :=
  [str (if b_at_nodes b then "$NodeData" else "$ElementData"); str "1"; [chr 34] ++ b_name b ++ [chr 34]; str "1"; fstr io (b_time b);
   str "3"; zstr (b_step b); zstr (b_components b); zstr (Z.of_nat (List.length (b_values b)))].
Definition blockEnd (b : block) : text := str (if b_at_nodes b then "$EndNodeData" else "$EndElementData").
Definition blockLines (b : block) : list text :=
  blockHead b ++ map (fun v => sentence (zstr (fst v) :: map (fstr io) (snd v))) (b_values b) ++ [blockEnd b].
(** [before], [between], [after]: lines of other sections *)
Definition asciiFile (nodes : list (Z * point)) (elems : list element) (before between after : list text) : text :=
  textLines ([str "$MeshFormat"; str "2.2 0 8"; str "$EndMeshFormat"] ++ before ++
             [str "$Nodes"; zstr (Z.of_nat (List.length nodes))] ++ map nodeLine nodes ++ [str "$EndNodes"] ++ between ++
             [str "$Elements"; zstr (Z.of_nat (List.length elems))] ++ map elementLine elems ++ [str "$EndElements"] ++ after).

(** binary: the numbers of these sections as bytes; elements in groups of the same type and number of tags *)
Definition nodeBytes (n : Z * point) : text := let '(i, (x, y, z)) := n in bytes4 i ++ pack8 io x ++ pack8 io y ++ pack8 io z.
Record group := Group { g_type : Z; g_ntags : nat; g_members : list element }.
Definition elementBytes (e : element) : text := concat (map bytes4 (e_id e :: e_tags e ++ e_nodes e)).
Definition groupBytes (g : group) : text :=
  concat (map bytes4 [g_type g; Z.of_nat (List.length (g_members g)); Z.of_nat (g_ntags g)]) ++ concat (map elementBytes (g_members g)).
Definition blockBytes (b : block) : text :=
  textLines (blockHead b) ++ concat (map (fun v => bytes4 (fst v) ++ concat (map (pack8 io) (snd v))) (b_values b)) ++ [chr 10] ++ textLine (blockEnd b).
Definition elementsOf (gs : list group) : list element := concat (map g_members gs).
Definition binaryFile (nodes : list (Z * point)) (gs : list group) (before between : list text) (after : text) : text :=
  textLines [str "$MeshFormat"; str "2.2 1 8"] ++ textLine (bytes4 1) ++ textLine (str "$EndMeshFormat") ++ textLines before ++
  textLines [str "$Nodes"; zstr (Z.of_nat (List.length nodes))] ++ textLine (concat (map nodeBytes nodes)) ++ textLine (str "$EndNodes") ++ textLines between ++
  textLines [str "$Elements"; zstr (Z.of_nat (List.length (elementsOf gs)))] ++ textLine (concat (map groupBytes gs)) ++ textLine (str "$EndElements") ++ after.

(** a line of printable ASCII characters that does not end with a blank and starts none of the three sections *)
Definition plainLine (l : text) : Prop :=
  l <> [] /\ Forall (fun c => 32 <= code c < 127) l /\ last l (chr 0) <> chr 32 /\ l <> str "$MeshFormat" /\ l <> str "$Nodes" /\ l <> str "$Elements".
(** numbers as Python prints them: printable, no blanks, no $ first; reading gives the number rounded by [rnd] *)
Definition floatsOk (rnd : V -> V) : Prop :=
  (forall x, fstr io x <> [] /\ Forall (fun c => 33 <= code c < 127) (fstr io x) /\ hd_error (fstr io x) <> Some (chr 36) /\ fval io (fstr io x) = Some (rnd x)) /\
  (forall x, List.length (pack8 io x) = 8%nat /\ unpack8 io (pack8 io x) = Some x).
Definition roundNode (rnd : V -> V) (n : Z * point) : Z * point := let '(i, (x, y, z)) := n in (i, (rnd x, rnd y, rnd z)).

(** the nodes are numbered 1, 2, ... *)
Definition numbered (nodes : list (Z * point)) : Prop :=
  Z.of_nat (List.length nodes) < 2 ^ 32 /\ forall k n, nth_error nodes k = Some n -> fst n = Z.of_nat k + 1.
Definition triangles (elems : list element) : list element := filter (fun e => e_type e =? 2) elems.
(** triangles have a tag and three nodes of the file; ids and tags fit into 32 bits *)
Definition triangleOk (nodes : list (Z * point)) (t : element) : Prop :=
  uint32 (e_id t) /\ (exists tag r, e_tags t = tag :: r /\ uint32 tag) /\ List.length (e_nodes t) = 3%nat /\
  forall v, In v (e_nodes t) -> 1 <= v <= Z.of_nat (List.length nodes).
Definition triangleForm (t : element) : Prop :=
  uint32 (e_id t) /\ (exists tag r, e_tags t = tag :: r /\ uint32 tag) /\ List.length (e_nodes t) = 3%nat.
(** in a binary file everything has 32 bits, and elements have as many nodes as their type says *)
(** the numbers of nodes of the element types, from the manual of Gmsh: lines, triangles, quadrangles, tetrahedra, hexahedra, prisms and
    pyramids of order 1 (1-7), of order 2 (8-14, 16-19), a point (15), triangles, lines and tetrahedra of higher order *)
Definition nodeCount (type : Z) : option nat :=
  match type with
  | 1 => Some 2%nat | 2 => Some 3%nat | 3 => Some 4%nat | 4 => Some 4%nat | 5 => Some 8%nat | 6 => Some 6%nat | 7 => Some 5%nat
  | 8 => Some 3%nat | 9 => Some 6%nat | 10 => Some 9%nat | 11 => Some 10%nat | 12 => Some 27%nat | 13 => Some 18%nat | 14 => Some 14%nat
  | 15 => Some 1%nat | 16 => Some 8%nat | 17 => Some 20%nat | 18 => Some 15%nat | 19 => Some 13%nat
  | 20 => Some 9%nat | 21 => Some 10%nat | 22 => Some 12%nat | 23 => Some 15%nat | 24 => Some 15%nat | 25 => Some 21%nat
  | 26 => Some 4%nat | 27 => Some 5%nat | 28 => Some 6%nat | 29 => Some 20%nat | 30 => Some 35%nat | 31 => Some 56%nat | 92 => Some 64%nat | 93 => Some 125%nat
  | _ => None
  end.
Definition memberOk (g : group) (e : element) : Prop :=
  e_type e = g_type g /\ List.length (e_tags e) = g_ntags g /\ Some (List.length (e_nodes e)) = nodeCount (g_type g) /\
  Forall int32 (e_id e :: e_tags e ++ e_nodes e).
Definition groupOk (g : group) : Prop :=
  g_members g <> [] /\ int32 (g_type g) /\ int32 (Z.of_nat (List.length (g_members g))) /\ int32 (Z.of_nat (g_ntags g)) /\ Forall (memberOk g) (g_members g).

(** numpy.argsort: some permutation of the positions that sorts the values *)
Definition argsortOk (argsort : list Z -> list nat) : Prop :=
  forall l, Permutation (argsort l) (seq 0 (List.length l)) /\ StronglySorted (fun i j => nth i l 0 <= nth j l 0) (argsort l).

(** the grid structure [g] consists of these triangles and the nodes they use: vertex k is the node with the id vertex_ids[k],
    element k the k-th triangle *)
Record describes (nodes : list (Z * point)) (tris : list element) (g : ggrid io) : Prop := {
  de_elements : List.length (g_elements g) = List.length tris;
  de_ids : g_element_ids g = map e_id tris;
  de_domains : g_domain_indices g = map (fun t => hd 0 (e_tags t)) tris;
  de_vertices : List.length (g_vertices g) = List.length (g_vertex_ids g);
  de_distinct : NoDup (g_vertex_ids g);
  de_positions : forall k i p, nth_error (g_vertex_ids g) k = Some i -> nth_error (g_vertices g) k = Some p -> In (i, p) nodes;
  de_corners : forall k t, nth_error tris k = Some t -> exists vs, nth_error (g_elements g) k = Some vs /\
     Forall2 (fun v i => 0 <= v /\ nth_error (g_vertex_ids g) (Z.to_nat v) = Some i) vs (e_nodes t);
  de_used : forall i, In i (g_vertex_ids g) -> exists t, In t tris /\ In i (e_nodes t)
}.

(** ---- what a data set says ---- *)
(** the data sections: all arrays of the real parts, then all of the imaginary parts *)
Definition arrayBlocks (at_nodes : bool) (ids : list Z) (times : list V) (name : text) (l : list (array io)) : list block :=
  map (fun x => let '(k, (t, a)) := x in Block at_nodes name t (Z.of_nat k) (a_comp a) (combine ids (a_points a)))
      (combine (seq 0 (List.length l)) (combine times l)).
Definition dataBlocks (at_nodes : bool) (ids : list Z) (times : list V) (d : data io) : list block :=
  match d_imag d with
  | None => arrayBlocks at_nodes ids times (d_description d) (d_real d)
  | Some im => arrayBlocks at_nodes ids times (d_description d ++ str " (real)") (d_real d) ++
               arrayBlocks at_nodes ids times (d_description d ++ str " (imag)") im
  end.
Definition setBlocks (s : dataset io) (vids eids : list Z) : list block :=
  concat (map (dataBlocks true vids (s_timesteps s)) (s_vertex_data s)) ++ concat (map (dataBlocks false eids (s_timesteps s)) (s_element_data s)).
Definition setNodes (s : dataset io) (vids : list Z) : list (Z * point) := combine vids (g_vertices (s_grid s)).
(** element k: the triangle with the ids of its corners, its domain index as first tag *)
Definition setElements (s : dataset io) (vids eids : list Z) : list element :=
  map (fun x => let '(id, (dom, vs)) := x in Element id 2 [dom; 0] (map (fun v => nth (Z.to_nat v) vids 0) vs))
      (combine eids (combine (g_domain_indices (s_grid s)) (g_elements (s_grid s)))).
Definition dataOk (n : nat) (times : list V) (d : data io) : Prop :=
  (List.length (d_real d) <= List.length times)%nat /\
  (forall im, d_imag d = Some im -> List.length im = List.length (d_real d)) /\
  (forall a, In a (d_real d ++ match d_imag d with Some im => im | None => [] end) -> List.length (a_points a) = n) /\
  (d_description d = [] \/ 32 < code (last (d_description d) (chr 0))).
Record setOk (s : dataset io) (vids eids : list Z) : Prop := {
  so_vids : List.length vids = List.length (g_vertices (s_grid s));
  so_eids : List.length eids = List.length (g_elements (s_grid s));
  so_doms : List.length (g_domain_indices (s_grid s)) = List.length (g_elements (s_grid s));
  so_elements : forall vs, In vs (g_elements (s_grid s)) -> List.length vs = 3%nat /\ forall v, In v vs -> 0 <= v < Z.of_nat (List.length vids);
  so_vdata : forall d, In d (s_vertex_data s) -> dataOk (List.length vids) (s_timesteps s) d;
  so_edata : forall d, In d (s_element_data s) -> dataOk (List.length eids) (s_timesteps s) d
}.

(** ---- what exporting a grid or functions says ---- *)
Definition numbers (n : nat) : list Z := map (fun k => Z.of_nat k + 1) (seq 0 n).
(** vertex k has the id k + 1, element k the id k + 1 and these tags *)
Definition gridNodes (b : bgrid io) : list (Z * point) := combine (numbers (List.length (b_vertices b))) (b_vertices b).
Definition gridElements (b : bgrid io) (domains : list Z) : list element :=
  map (fun x => let '(id, (dom, vs)) := x in Element id 2 [dom; 0] (map (fun v => v + 1) vs))
      (combine (numbers (List.length (b_elements b))) (combine domains (b_elements b))).
Definition valuesOf (at_nodes : bool) (f : gfun io) : list (list (V * V)) := if at_nodes then f_onvertices f else f_onelements f.
Definition part (at_nodes : bool) (p : V * V -> V) (f : gfun io) : array io := Array (f_comp f) (map (map p) (valuesOf at_nodes f)).
(** a series of functions: real parts and, for complex functions, imaginary parts *)
Definition seriesBlocks (at_nodes : bool) (ids : list Z) (times : list V) (l : list (gfun io)) : list block :=
  if forallb (@f_isreal io) l then arrayBlocks at_nodes ids times [] (map (part at_nodes fst) l)
  else arrayBlocks at_nodes ids times (str " (real)") (map (part at_nodes fst) l) ++ arrayBlocks at_nodes ids times (str " (imag)") (map (part at_nodes snd) l).
Definition gridOk (b : bgrid io) : Prop :=
  Z.of_nat (List.length (b_vertices b)) < 2 ^ 31 /\ Z.of_nat (List.length (b_elements b)) < 2 ^ 31 /\ b_elements b <> [] /\
  forall vs, In vs (b_elements b) -> List.length vs = 3%nat /\ forall v, In v vs -> 0 <= v < Z.of_nat (List.length (b_vertices b)).
(** one domain index for each element, in 31 bits *)
Definition domsOk (b : bgrid io) (doms : list Z) : Prop := List.length doms = List.length (b_elements b) /\ Forall int32 doms /\ Forall uint32 doms.
Definition nameOk (b : block) : Prop := Forall (fun c => 32 <= code c < 127) (b_name b).
(** functions on one grid, one type, one number of components; a time for each *)
Definition seriesOk (grid : nat) (n : nat) (at_nodes : bool) (times : list V) (l : list (gfun io)) : Prop :=
  l <> [] /\ (List.length l <= List.length times)%nat /\
  exists comp isreal, forall f, In f l -> f_grid f = grid /\ f_comp f = comp /\ f_isreal f = isreal /\ List.length (valuesOf at_nodes f) = n.
(** the file that exporting a grid with these domain indices and data sections should give *)
Definition gridFile (binary : bool) (b : bgrid io) (domains : list Z) (blocks : list block) : text :=
  if binary then binaryFile (gridNodes b) [Group 2 2 (gridElements b domains)] [] [] (concat (map blockBytes blocks))
  else asciiFile (gridNodes b) (gridElements b domains) [] [] (concat (map blockLines blocks)).
(** what is exported: its grid, the series of functions *)
Definition gridOf (x : exported io) : nat :=
  match x with ExportGrid n => n | ExportFunction f => f_grid f | ExportSeries l => match l with (f :: _) :: _ => f_grid f | _ => 0%nat end end.
Definition seriesOf (x : exported io) : list (list (gfun io)) := match x with ExportGrid _ => [] | ExportFunction f => [[f]] | ExportSeries l => l end.
Definition nonEmpty (x : exported io) : Prop := match x with ExportSeries l => l <> [] | _ => True end.
(** ids given by the user are accepted if there is one for each vertex *)
Definition idsOk (b : bgrid io) (o : options io) : Prop := forall l, o_vids o = Some l -> List.length l = List.length (b_vertices b).
(** the imported grid is the exported one, except that vertices of no element are left out and the others may be renumbered;
    coordinates are rounded by [rnd]: element k has the same corners, and the id maps give the original numbers plus one *)
Record sameGrid (rnd : V -> V) (b : bgrid io) (g : ggrid io) : Prop := {
  sg_elements : List.length (g_elements g) = List.length (b_elements b);
  sg_element_ids : g_element_ids g = numbers (List.length (b_elements b));
  sg_vertices : List.length (g_vertices g) = List.length (g_vertex_ids g);
  sg_distinct : NoDup (g_vertex_ids g);
  sg_positions : forall k i p, nth_error (g_vertex_ids g) k = Some i -> nth_error (g_vertices g) k = Some p ->
     exists x y z, 1 <= i /\ nth_error (b_vertices b) (Z.to_nat (i - 1)) = Some (x, y, z) /\ p = (rnd x, rnd y, rnd z);
  sg_corners : forall k vs, nth_error (b_elements b) k = Some vs -> exists ws, nth_error (g_elements g) k = Some ws /\
     Forall2 (fun w v => 0 <= w /\ nth_error (g_vertex_ids g) (Z.to_nat w) = Some (v + 1)) ws vs
}.
End Spec.

(** ---- transformations of the data ---- *)
Section Transformations.
Variables (io : floatIO) (magnitude : list (V io * V io) -> V io) (zeroV : V io).
(** the function whose values are the transformed ones: real parts, imaginary parts, or one value computed from all components *)
Definition pointwise (t : transformation io) (comp : Z) (points : list (list (V io * V io))) : list (list (V io * V io)) :=
  match t with
  | TNone => points
  | TReal => map (map (fun z => (fst z, zeroV))) points
  | TImag => map (map (fun z => (snd z, zeroV))) points
  | TMagnitude => map (fun p => [(magnitude p, zeroV)]) points
  | TCall f => c_points (f (CArray comp points))
  end.
Definition componentsAfter (t : transformation io) (comp : Z) (points : list (list (V io * V io))) : Z :=
  match t with TMagnitude => 1 | TCall f => c_comp (f (CArray comp points)) | _ => comp end.
Definition applied (t : transformation io) (f : gfun io) : gfun io :=
  GFun (f_grid f) (f_comp f) (f_isreal f) (pointwise t (f_comp f) (f_onvertices f)) (pointwise t (f_comp f) (f_onelements f)).
(** the function with the number of components of the transformed values *)
Definition appliedAll (t : transformation io) (at_nodes : bool) (f : gfun io) : gfun io :=
  GFun (f_grid f) (componentsAfter t (f_comp f) (valuesOf at_nodes f)) (f_isreal f) (pointwise t (f_comp f) (f_onvertices f)) (pointwise t (f_comp f) (f_onelements f)).
Definition onFunctions (g : gfun io -> gfun io) (x : exported io) : exported io :=
  match x with ExportGrid n => ExportGrid n | ExportFunction f => ExportFunction (g f) | ExportSeries l => ExportSeries (map (map g) l) end.
End Transformations.
(** ---- the file of a data set with these ids; what has to fit into 32 bits in binary files ---- *)
Definition fileOf (io : floatIO) (binary : bool) (s : dataset io) (vids eids : list Z) : text :=
  if binary then binaryFile (setNodes s vids) [Group 2 2 (setElements s vids eids)] [] [] (concat (map (@blockBytes io) (setBlocks s vids eids)))
  else asciiFile (setNodes s vids) (setElements s vids eids) [] [] (concat (map (@blockLines io) (setBlocks s vids eids))).
Definition fits (io : floatIO) (binary : bool) (s : dataset io) (vids eids : list Z) : Prop :=
  binary = true -> Forall int32 vids /\ Forall int32 eids /\ Forall int32 (g_domain_indices (s_grid s)) /\ int32 (Z.of_nat (List.length eids)).
