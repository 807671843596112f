(** The Gmsh file interface: /repo/python/bempp/api/file_interfaces/gmsh.py, and export / import_grid /
    bempp_object_to_grid_data_set of general_interface.py, for Python 3 (where bytes and str differ).  Files are lists of bytes.
    Conversion of floating point numbers to text and to 8 bytes, and back, are parameters ([floatIO]).
    Simplifications: int() of a token with underscores, splitting at non-ASCII white space; open() always succeeds;
    a file written in part before an exception is not described. *)
From Coq Require Import List ZArith Bool Lia Ascii String DecimalString DecimalZ.
From Verif Require Import Base.
Import ListNotations.
Set Implicit Arguments.
Unset Strict Implicit.
Local Open Scope Z_scope.

(** a value, an exception, or not finished within the given number of rounds *)
Inductive res (A : Type) := Ok (a : A) | Raise | Running.
Arguments Ok {A}. Arguments Raise {A}. Arguments Running {A}.
Definition bind {A B} (x : res A) (f : A -> res B) : res B := match x with Ok a => f a | Raise => Raise | Running => Running end.
Notation "x <-- e ;;; b" := (bind e (fun x => b)) (at level 60, e at next level, b at level 200, right associativity).
Notation "' p <-- e ;;; b" := (bind e (fun x => let 'p := x in b)) (at level 60, p pattern, e at next level, b at level 200, right associativity).
Definition get {A} (x : option A) : res A := match x with Some a => Ok a | None => Raise end.
Fixpoint mapM {A B} (f : A -> res B) (l : list A) : res (list B) :=
  match l with [] => Ok [] | a :: r => b <-- f a ;;; bs <-- mapM f r ;;; Ok (b :: bs) end.

Definition text := list ascii.
Definition str (s : string) : text := list_ascii_of_string s.
Definition code (c : ascii) : Z := Z.of_N (N_of_ascii c).
Definition chr (z : Z) : ascii := ascii_of_N (Z.to_N z).
Definition nl : ascii := chr 10.
Definition sp : ascii := chr 32.
Definition teq (a b : text) : bool := if list_eq_dec ascii_dec a b then true else false.

(** Python: file.readline, bytes.rstrip, bytes.decode('utf-8') (strict), str.split, int, struct *)
Fixpoint readline (f : text) : text * text :=
  match f with [] => ([], []) | c :: r => if Ascii.eqb c nl then ([c], r) else let (l, r') := readline r in (c :: l, r') end.
Definition isSpace (c : ascii) : bool := (code c =? 32) || ((9 <=? code c) && (code c <=? 13)).
Fixpoint rstrip (l : text) : text :=
  match l with [] => [] | c :: r => match rstrip r with [] => if isSpace c then [] else [c] | r' => c :: r' end end.
Definition cont (lo hi : Z) (c : ascii) : bool := (lo <=? code c) && (code c <=? hi).
Fixpoint utf8 (l : text) : bool :=
  match l with
  | [] => true
  | a :: r =>
    let x := code a in
    if x <? 128 then utf8 r
    else if (194 <=? x) && (x <=? 223) then match r with b :: r' => cont 128 191 b && utf8 r' | _ => false end
    else if (224 <=? x) && (x <=? 239) then
      match r with b :: c :: r' => cont (if x =? 224 then 160 else 128) (if x =? 237 then 159 else 191) b && cont 128 191 c && utf8 r' | _ => false end
    else if (240 <=? x) && (x <=? 244) then
      match r with b :: c :: d :: r' =>
        cont (if x =? 240 then 144 else 128) (if x =? 244 then 143 else 191) b && cont 128 191 c && cont 128 191 d && utf8 r' | _ => false end
    else false
  end.
(** f.readline().rstrip().decode('utf-8') *)
Definition getline (f : text) : res (text * text) :=
  let (l, r) := readline f in let s := rstrip l in if utf8 s then Ok (s, r) else Raise.
Definition wsp (c : ascii) : bool := isSpace c || ((28 <=? code c) && (code c <=? 31)).
Fixpoint words (l : text) : list text :=
  match l with
  | [] => []
  | c :: r => if wsp c then words r else
      match r with
      | [] => [[c]]
      | d :: _ => if wsp d then [c] :: words r else match words r with w :: ws => (c :: w) :: ws | [] => [[c]] end
      end
  end.
Definition intWord (w : text) : option Z :=
  match w with
  | c :: d => if Ascii.eqb c "+"%char then option_map Z.of_uint (NilZero.uint_of_string (string_of_list_ascii d))
              else option_map Z.of_int (NilZero.int_of_string (string_of_list_ascii w))
  | [] => None
  end.
Definition pyInt (s : text) : option Z := match words s with [w] => intWord w | _ => None end.
Definition zstr (z : Z) : text := str (NilZero.string_of_int (Z.to_int z)).
(** struct.pack('i', z) on a little endian machine (out of range: struct.error), struct.unpack('i', .) *)
Definition le4 (z : Z) : res text :=
  if (- 2 ^ 31 <=? z) && (z <? 2 ^ 31) then
    let u := z mod 2 ^ 32 in Ok [chr (u mod 256); chr (u / 256 mod 256); chr (u / 65536 mod 256); chr (u / 16777216)]
  else Raise.
Definition int4 (b : text) : res Z :=
  match b with
  | [b0; b1; b2; b3] => let u := code b0 + 256 * code b1 + 65536 * code b2 + 16777216 * code b3 in
                        Ok (if u <? 2 ^ 31 then u else u - 2 ^ 32)
  | _ => Raise
  end.
Definition read (n : nat) (f : text) : text * text := (firstn n f, skipn n f).
Definition readInt (f : text) : res (Z * text) := let (b, r) := read 4 f in z <-- int4 b ;;; Ok (z, r).
Fixpoint readInts (n : nat) (f : text) : res (list Z * text) :=
  match n with O => Ok ([], f) | S k => '(z, r) <-- readInt f ;;; '(zs, r') <-- readInts k r ;;; Ok (z :: zs, r') end.
(** list[i] with Python's negative indices *)
Definition pyget {A} (l : list A) (i : Z) : option A :=
  let n := Z.of_nat (List.length l) in
  if (0 <=? i) && (i <? n) then nth_error l (Z.to_nat i) else if (- n <=? i) && (i <? 0) then nth_error l (Z.to_nat (n + i)) else None.
Fixpoint setNth {A} (l : list A) (i : nat) (a : A) : list A :=
  match l, i with [], _ => [] | _ :: r, O => a :: r | x :: r, S k => x :: setNth r k a end.
Definition pyset {A} (l : list A) (i : Z) (a : A) : option (list A) :=
  let n := Z.of_nat (List.length l) in
  if (0 <=? i) && (i <? n) then Some (setNth l (Z.to_nat i) a) else if (- n <=? i) && (i <? 0) then Some (setNth l (Z.to_nat (n + i)) a) else None.
(** stored in a uint32 array *)
Definition u32 (z : Z) : Z := z mod 2 ^ 32.

(** floating point numbers: str, float(), the 8 bytes of a double and back *)
Record floatIO := FloatIO { V : Type; fstr : V -> text; fval : text -> option V; pack8 : V -> text; unpack8 : text -> option V }.

Arguments fstr : clear implicits. Arguments fval : clear implicits. Arguments pack8 : clear implicits. Arguments unpack8 : clear implicits.

Section Io.
Variable io : floatIO.
Notation V := (V io).
Definition point : Type := V * V * V.

(** gmsh.py 5-37 *)
Definition nodesPerType : list (Z * Z) :=
  [(1,2);(2,3);(3,4);(4,4);(5,8);(6,6);(7,5);(8,3);(9,6);(10,9);(11,10);(12,27);(13,18);(14,14);(15,1);(16,8);(17,20);(18,15);(19,13);(20,9);(21,10);
   (22,12);(23,15);(24,15);(25,21);(26,4);(27,5);(28,6);(29,20);(30,35);(31,56);(92,64);(93,125)].
Definition nodesOfType (t : Z) : option nat := option_map (fun p => Z.to_nat (snd p)) (find (fun p => fst p =? t) nodesPerType).

(** gmsh.py 56-70 read_vertex *)
Definition readVertex (s : text) : res (Z * point) :=
  match words s with
  | [a; b; c; d] => i <-- get (intWord a) ;;; x <-- get (fval io b) ;;; y <-- get (fval io c) ;;; z <-- get (fval io d) ;;; Ok (i, (x, y, z))
  | _ => Raise
  end.
(** a triangle of the file: element id, nodes, physical id *)
Definition triangle : Type := Z * list Z * Z.
Definition tokenInt (t : list text) (i : Z) : res Z := w <-- get (pyget t i) ;;; get (intWord w).
(** 73-92 read_element *)
Definition readElement (s : text) : res (option triangle) :=
  let t := words s in
  index <-- tokenInt t 0 ;;; type <-- tokenInt t 1 ;;;
  if negb (type =? 2) then Ok None else
  phys <-- tokenInt t 3 ;;; v2 <-- tokenInt t (-1) ;;; v1 <-- tokenInt t (-2) ;;; v0 <-- tokenInt t (-3) ;;;
  Ok (Some (index, [v0; v1; v2], phys)).

(** 94-101: what has been read so far; None: nothing *)
Record parsed := Parsed { p_nodes : option (list (Z * point)); p_elems : option (list triangle); p_binary : bool; p_size : option Z }.
Definition start : parsed := Parsed None None false None.

(** 109-130 *)
Definition readFormat (st : parsed) (f : text) : res (parsed * text) :=
  '(s, f) <-- getline f ;;;
  let t := words s in
  v <-- get (pyget t 0) ;;;
  if negb (teq v (str "2.2")) then Raise else
  b <-- tokenInt t 1 ;;;
  let binary := (b =? 1) || p_binary st in
  size <-- tokenInt t 2 ;;;
  f <-- (if binary then '(v, f) <-- readInt f ;;; if negb (v =? 1) then Raise else Ok (snd (readline f)) else Ok f) ;;;
  '(s, f) <-- getline f ;;;
  if teq s (str "$EndMeshFormat") then Ok (Parsed (p_nodes st) (p_elems st) binary (Some size), f) else Raise.

(** 151-165: [todo] more vertices to read, s the current line; the line after the last one is returned.
    (The first line is not decoded, and then never equal to "$EndNodes"; as this is no vertex the outcome is the same.) *)
Fixpoint readVertices (todo : nat) (s f : text) : res (list (Z * point) * (text * text)) :=
  match todo with
  | O => Raise
  | S k => if teq s (str "$EndNodes") then Raise else
      '(i, p) <-- readVertex s ;;; '(s, f) <-- getline f ;;;
      '(l, x) <-- (match k with O => Ok ([], (s, f)) | _ => readVertices k s f end) ;;; Ok ((u32 i, p) :: l, x)
  end.
(** 142-147: the records of 28 bytes *)
Fixpoint records (n : nat) (b : text) : res (list (Z * point)) :=
  match n with
  | O => match b with [] => Ok [] | _ => Raise end
  | S k => match b with [] => Ok [] | _ =>
      i <-- int4 (firstn 4 b) ;;; x <-- get (unpack8 io (firstn 8 (skipn 4 b))) ;;; y <-- get (unpack8 io (firstn 8 (skipn 12 b))) ;;;
      z <-- get (unpack8 io (firstn 8 (skipn 20 b))) ;;; l <-- records k (skipn 28 b) ;;; Ok ((u32 i, (x, y, z)) :: l) end
  end.
(** 131-168 *)
Definition readNodes (st : parsed) (f : text) : res (parsed * text) :=
  '(s, f) <-- getline f ;;; n <-- get (pyInt s) ;;;
  if n <? 0 then Raise else
  '(l, (s, f)) <-- (if p_binary st then
       size <-- get (p_size st) ;;;
       (* read(-k) would read everything *)
       let k := n * (4 + 3 * size) in
       let (b, f) := if k <? 0 then (f, []) else read (Z.to_nat k) f in
       if negb (Z.of_nat (List.length b) mod 28 =? 0) then Raise else
       l <-- records (List.length b) b ;;;
       l <-- (match l with _ => if Z.of_nat (List.length l) =? n then Ok l else match l with [x] => Ok (repeat x (Z.to_nat n)) | _ => Raise end end) ;;;
       '(_, f) <-- getline f ;;; '(s, f) <-- getline f ;;; Ok (l, (s, f))
     else '(s, f) <-- getline f ;;; readVertices (Z.to_nat n) s f) ;;;
  if teq s (str "$EndNodes") then Ok (Parsed (Some l) (p_elems st) (p_binary st) (p_size st), f) else Raise.

(** 201-216, [todo] >= 1 more lines to read *)
Fixpoint readElements (todo : nat) (s f : text) : res (list triangle * (text * text)) :=
  match todo with
  | O => Raise
  | S k => if teq s (str "$EndElements") then Raise else
      e <-- readElement s ;;; '(s, f) <-- getline f ;;;
      '(l, x) <-- (match k with O => Ok ([], (s, f)) | _ => readElements k s f end) ;;;
      Ok (match e with Some t => t :: l | None => l end, x)
  end.
(** 187-195 *)
Fixpoint readGroup (type ntags : Z) (nnodes : nat) (n : nat) (f : text) : res (list triangle * text) :=
  match n with
  | O => Ok ([], f)
  | S k =>
      '(i, f) <-- readInt f ;;;
      if ntags <? 0 then Raise else
      '(tags, f) <-- readInts (Z.to_nat ntags) f ;;; '(nodes, f) <-- readInts nnodes f ;;;
      if type =? 2 then
        tag <-- get (pyget tags 0) ;;; '(l, f) <-- readGroup type ntags nnodes k f ;;; Ok ((i, nodes, tag) :: l, f)
      else readGroup type ntags nnodes k f
  end.
(** 180-195: count elements have been read *)
Fixpoint readGroups (fuel : nat) (n count : Z) (f : text) : res (list triangle * text) :=
  if count <? n then
    match fuel with
    | O => Running
    | S fuel =>
      '(h, f) <-- readInts 3 f ;;;
      match h with
      | [type; k; ntags] => nn <-- get (nodesOfType type) ;;; '(l, f) <-- readGroup type ntags nn (Z.to_nat k) f ;;;
                            '(l', f) <-- readGroups fuel n (count + Z.max 0 k) f ;;; Ok (l ++ l', f)
      | _ => Raise
      end
    end
  else Ok ([], f).
(** 169-219 *)
Definition readElems (st : parsed) (f : text) : res (parsed * text) :=
  '(s, f) <-- getline f ;;; n <-- get (pyInt s) ;;;
  '(l, (s, f)) <-- (if p_binary st then
       '(l, f) <-- readGroups (S (List.length f)) n 0 f ;;; '(_, f) <-- getline f ;;; '(s, f) <-- getline f ;;; Ok (l, (s, f))
     else '(s, f) <-- getline f ;;;
       (* for n <= 0 only the end of the section is accepted: otherwise lines are read until there is an error *)
       if n <=? 0 then (if teq s (str "$EndElements") && (n =? 0) then Ok ([], (s, f)) else Raise)
       else readElements (Z.to_nat n) s f) ;;;
  if teq s (str "$EndElements") then Ok (Parsed (p_nodes st) (Some l) (p_binary st) (p_size st), f) else Raise.

(** 103-223 parse_gmsh; each round consumes at least a byte *)
Fixpoint parseLoop (fuel : nat) (st : parsed) (f : text) : res parsed :=
  match fuel with
  | O => Running
  | S fuel =>
    '(s, f) <-- getline f ;;;
    if teq s [] then Ok st
    else if teq s (str "$MeshFormat") then '(st, f) <-- readFormat st f ;;; parseLoop fuel st f
    else if teq s (str "$Nodes") then '(st, f) <-- readNodes st f ;;; parseLoop fuel st f
    else if teq s (str "$Elements") then '(st, f) <-- readElems st f ;;; parseLoop fuel st f
    else parseLoop fuel st f
  end.
Definition parseGmsh (f : text) : res parsed := parseLoop (S (List.length f)) start f.

(** the grid structures of general_interface.py (GenericGrid): vertices, elements, ids, domain indices *)
Record ggrid := GGrid { g_vertices : list point; g_elements : list (list Z); g_vertex_ids : list Z; g_element_ids : list Z; g_domain_indices : list Z }.

Section Create.
(** numpy.argsort *)
Variable argsort : list Z -> list nat.
(** np.all(np.diff(ids) == 1), in uint32 arithmetic *)
Fixpoint contiguous (ids : list Z) : bool :=
  match ids with a :: (b :: _) as r => (u32 (b - a) =? 1) && contiguous r | _ => true end.
(** 407-415: vertex_used, vertex_count *)
Definition useVertex (s : list Z * Z) (v : Z) : res (Z * (list Z * Z)) :=
  let (used, count) := s in
  x <-- get (pyget used (v - 1)) ;;;
  if x =? -1 then used <-- get (pyset used (v - 1) count) ;;; Ok (count, (used, count + 1)) else Ok (x, s).
Fixpoint useVertices (s : list Z * Z) (vs : list Z) : res (list Z * (list Z * Z)) :=
  match vs with [] => Ok ([], s) | v :: r => '(x, s) <-- useVertex s v ;;; '(l, s) <-- useVertices s r ;;; Ok (x :: l, s) end.
Fixpoint useElements (s : list Z * Z) (es : list triangle) : res (list (list Z) * (list Z * Z)) :=
  match es with [] => Ok ([], s) | (_, vs, _) :: r => '(x, s) <-- useVertices s vs ;;; '(l, s) <-- useElements s r ;;; Ok (x :: l, s) end.
(** a[index_set], numpy: an index out of range raises *)
Definition pick {A} (l : list A) (is_ : list nat) : res (list A) := mapM (fun i => get (nth_error l i)) is_.
(** 392-428; argsort(.)[-0:] is the whole array, and one vertex is broadcast to none *)
Definition createGrid (p : parsed) : res ggrid :=
  nodes <-- get (p_nodes p) ;;; elems <-- get (p_elems p) ;;;
  first <-- get (hd_error nodes) ;;;
  if negb (fst first =? 1) || negb (contiguous (map fst nodes)) then Raise else
  '(elements, (used, count)) <-- useElements (repeat (-1) (List.length nodes), 0) elems ;;;
  let order := argsort used in
  let index_set := if count =? 0 then order else skipn (List.length order - Z.to_nat count) order in
  vs <-- pick (map snd nodes) index_set ;;; ids <-- pick (map fst nodes) index_set ;;;
  if (count =? 0) && negb (Z.of_nat (List.length nodes) =? 1) then Raise else
  let n := Z.to_nat count in
  Ok (GGrid (firstn n vs) elements (firstn n ids) (map (fun e => u32 (fst (fst e))) elems) (map (fun e => u32 (snd e)) elems)).
(** 431-440 import_data_sets, general_interface.py 191-222 import_grid: the arrays given to grid_from_element_data and the id maps *)
Definition importGmsh (f : text) : res ggrid := p <-- parseGmsh f ;;; createGrid p.
End Create.

(** ---- export ---- *)
(** a two-dimensional array: number of components, the data points *)
Record array := Array { a_comp : Z; a_points : list (list V) }.
Record data := Data { d_description : text; d_real : list array; d_imag : option (list array) }.
Record dataset := Dataset { s_grid : ggrid; s_vertex_data : list data; s_element_data : list data; s_timesteps : list V }.

Definition line (l : text) : text := l ++ [nl].
Fixpoint spaced (ws : list text) : text := match ws with [] => [] | [w] => w | w :: r => w ++ sp :: spaced r end.
Definition idOf (ids : list Z) (i : Z) : res Z := get (pyget ids i).

Section Export.
Variable binary : bool.
(** 244-277 write_actual_data *)
Definition writeValues (ids : list Z) (i : nat) (vals : list V) : res text :=
  id <-- idOf ids (Z.of_nat i) ;;;
  if binary then b <-- le4 id ;;; Ok (b ++ concat (map (pack8 io) vals)) else Ok (line (spaced (zstr id :: map (fstr io) vals))).
Fixpoint enum {A} (k : nat) (l : list A) : list (nat * A) := match l with [] => [] | a :: r => (k, a) :: enum (S k) r end.
Definition writeArray (vertex : bool) (ids : list Z) (identifier : text) (a : array) (time : V) (step : nat) : res text :=
  rows <-- mapM (fun p => writeValues ids (fst p) (snd p)) (enum 0 (a_points a)) ;;;
  Ok (line (str (if vertex then "$NodeData" else "$ElementData")) ++ line (str "1") ++
      line ([chr 34] ++ identifier ++ [chr 34]) ++ line (str "1") ++ line (fstr io time) ++
      line (str "3") ++ line (zstr (Z.of_nat step)) ++ line (zstr (a_comp a)) ++ line (zstr (Z.of_nat (List.length (a_points a)))) ++
      concat rows ++ (if binary then [nl] else []) ++ line (str (if vertex then "$EndNodeData" else "$EndElementData"))).
(** 278-294 write_data *)
Definition writeArrays (vertex : bool) (ids : list Z) (times : list V) (identifier : text) (l : list array) : res text :=
  ts <-- mapM (fun p => t <-- get (nth_error times (fst p)) ;;; writeArray vertex ids identifier (snd p) t (fst p)) (enum 0 l) ;;; Ok (concat ts).
Definition writeData (vertex : bool) (ids : list Z) (times : list V) (d : data) : res text :=
  match d_imag d with
  | None => writeArrays vertex ids times (rstrip (d_description d)) (d_real d)
  | Some im => r <-- writeArrays vertex ids times (rstrip (d_description d) ++ str " (real)") (d_real d) ;;;
               (* number_of_arrays is the length of real *)
               i <-- (if (List.length im <? List.length (d_real d))%nat then Raise
                      else writeArrays vertex ids times (rstrip (d_description d) ++ str " (imag)") (firstn (List.length (d_real d)) im)) ;;;
               Ok (r ++ i)
  end.
(** 328-342 *)
Definition writeNode (id : Z) (p : point) : res text :=
  let '(x, y, z) := p in
  if binary then b <-- le4 id ;;; Ok (b ++ pack8 io x ++ pack8 io y ++ pack8 io z)
  else Ok (line (spaced [zstr id; fstr io x; fstr io y; fstr io z])).
(** 355-378 *)
Definition writeElement (vids : list Z) (id dom : Z) (vs : list Z) : res text :=
  match vs with
  | [v0; v1; v2] =>
    a <-- idOf vids v0 ;;; b <-- idOf vids v1 ;;; c <-- idOf vids v2 ;;;
    if binary then l <-- mapM le4 [id; dom; 0; a; b; c] ;;; Ok (concat l)
    else Ok (line (spaced [zstr id; str "2"; str "2"; zstr dom; str "0"; zstr a; zstr b; zstr c]))
  | _ => Raise
  end.
Definition range1 (n : nat) : list Z := map (fun i => Z.of_nat i) (seq 1 n).
(** 310-389: one file, for given ids *)
Definition writeFile (s : dataset) (vids eids : list Z) : res text :=
  let g := s_grid s in
  nodes <-- mapM (fun p => id <-- idOf vids (Z.of_nat (fst p)) ;;; writeNode id (snd p)) (enum 0 (g_vertices g)) ;;;
  elems <-- mapM (fun p => id <-- idOf eids (Z.of_nat (fst p)) ;;; dom <-- idOf (g_domain_indices g) (Z.of_nat (fst p)) ;;;
                           writeElement vids id dom (snd p)) (enum 0 (g_elements g)) ;;;
  header <-- (if binary then b <-- mapM le4 [2; Z.of_nat (List.length (g_elements g)); 2] ;;; Ok (concat b) else Ok []) ;;;
  vdata <-- mapM (writeData true vids (s_timesteps s)) (s_vertex_data s) ;;;
  edata <-- mapM (writeData false eids (s_timesteps s)) (s_element_data s) ;;;
  one <-- le4 1 ;;;
  Ok (line (str "$MeshFormat") ++ (if binary then line (str "2.2 1 8") ++ line one else line (str "2.2 0 8")) ++ line (str "$EndMeshFormat") ++
      line (str "$Nodes") ++ line (zstr (Z.of_nat (List.length (g_vertices g)))) ++ concat nodes ++ (if binary then [nl] else []) ++ line (str "$EndNodes") ++
      line (str "$Elements") ++ line (zstr (Z.of_nat (List.length (g_elements g)))) ++ header ++ concat elems ++ (if binary then [nl] else []) ++ line (str "$EndElements") ++
      concat vdata ++ concat edata).
(** 296-389 export_data_sets: file suffixes and contents; vertex_ids and element_ids stay set after the first data set (324-325, 350-351) *)
Fixpoint writeFiles (k : nat) (many : bool) (l : list dataset) (vids eids : option (list Z)) : res (list (text * text)) :=
  match l with
  | [] => Ok []
  | s :: r =>
    let v := match vids with Some v => v | None => range1 (List.length (g_vertices (s_grid s))) end in
    let e := match eids with Some e => e | None => range1 (List.length (g_elements (s_grid s))) end in
    f <-- writeFile s v e ;;; fs <-- writeFiles (S k) many r (Some v) (Some e) ;;;
    Ok ((if many then zstr (Z.of_nat k) else [], f) :: fs)
  end.
Definition exportDataSets (l : list dataset) (vids eids : option (list Z)) : res (list (text * text)) :=
  match l with [] => Raise | [_] => writeFiles 0 false l vids eids | _ => writeFiles 0 true l vids eids end.
End Export.

(** ---- general_interface.py ---- *)
(** a grid: leaf_view.vertices, .elements, .domain_indices *)
Record bgrid := BGrid { b_vertices : list point; b_elements : list (list Z); b_domains : list Z }.
(** 267-335 GenericGrid.__init__; None: default *)
Definition range0 (n : nat) : list Z := map Z.of_nat (seq 0 n).
Definition genericGrid (vs : list point) (es : list (list Z)) (vids eids doms : option (list Z)) : res ggrid :=
  v <-- (match vids with None => Ok (range0 (List.length vs)) | Some l => if (List.length l =? List.length vs)%nat then Ok (map u32 l) else Raise end) ;;;
  let e := match eids with None => range0 (List.length es) | Some l => map u32 l end in
  d <-- (match doms with None => Ok (repeat 0 (List.length es)) | Some l => if (List.length l =? List.length es)%nat then Ok (map u32 l) else Raise end) ;;;
  Ok (GGrid vs es v e d).

(** a grid function: its grid, component count, whether its type is real, values on vertices and on element centres (real and imaginary parts) *)
Record gfun := GFun { f_grid : nat; f_comp : Z; f_isreal : bool; f_onvertices : list (list (V * V)); f_onelements : list (list (V * V)) }.
(** the arrays of NumPy: one row per component *)
Record carray := CArray { c_comp : Z; c_points : list (list (V * V)) }.
(** 732-772 transform_array: 'real', 'imag', the three modes that sum over the components, a callable *)
Variable magnitude : list (V * V) -> V.
Variable zeroV : V.
Inductive transformation := TNone | TReal | TImag | TMagnitude | TCall (f : carray -> carray).
Definition transform (t : transformation) (a : carray) : carray :=
  match t with
  | TNone => a
  | TReal => CArray (c_comp a) (map (map (fun z => (fst z, zeroV))) (c_points a))
  | TImag => CArray (c_comp a) (map (map (fun z => (snd z, zeroV))) (c_points a))
  | TMagnitude => CArray 1 (map (fun p => [(magnitude p, zeroV)]) (c_points a))
  | TCall f => f a
  end.
(** 489-503 Data.add_data for given components and number of points; converting to 'float' drops imaginary parts *)
Definition addData (comp : Z) (n : nat) (isreal : bool) (d : data) (a : carray) : res data :=
  if negb ((c_comp a =? comp) && (List.length (c_points a) =? n)%nat) then Raise else
  let re := Array (c_comp a) (map (map fst) (c_points a)) in
  let im := Array (c_comp a) (map (map snd) (c_points a)) in
  Ok (Data (d_description d) (d_real d ++ [re]) (if isreal then d_imag d else option_map (fun l => l ++ [im]) (d_imag d))).
Fixpoint addAll (grid : nat) (comp : Z) (n : nat) (isreal : bool) (t : transformation) (values : gfun -> list (list (V * V))) (d : data) (l : list gfun) : res data :=
  match l with
  | [] => Ok d
  | f :: r => if negb (f_grid f =? grid)%nat then Raise else
      d <-- addData comp n isreal d (transform t (CArray (f_comp f) (values f))) ;;; addAll grid comp n isreal t values d r
  end.
Definition seriesData (grid n : nat) (t : transformation) (values : gfun -> list (list (V * V))) (l : list gfun) : res data :=
  f <-- get (hd_error l) ;;;
  addAll grid (f_comp f) n (f_isreal f) t values (Data [] [] (if f_isreal f then None else Some [])) l.

(** 16-153 export, 774-881 bempp_object_to_grid_data_set, for a .msh file; [grids] gives the grid of each number *)
Inductive exported := ExportGrid (grid : nat) | ExportFunction (f : gfun) | ExportSeries (l : list (list gfun)).
Record options := Options { o_vids : option (list Z); o_eids : option (list Z); o_element : bool; o_transform : transformation; o_timesteps : option (list V) }.
(** 603-629: the default of timesteps is [0] *)
Definition objectToDataSet (grids : nat -> bgrid) (grid : nat) (series : option (list (list gfun))) (o : options) : res dataset :=
  let b := grids grid in
  (* 843-844: no domain indices are given *)
  g <-- genericGrid (b_vertices b) (b_elements b) (o_vids o) (o_eids o) None ;;;
  d <-- (match series with
         | None => Ok []
         | Some l => if o_element o then mapM (seriesData grid (List.length (b_elements b)) (o_transform o) f_onelements) l
                     else mapM (seriesData grid (List.length (b_vertices b)) (o_transform o) f_onvertices) l
         end) ;;;
  Ok (if o_element o then Dataset g [] d (match o_timesteps o with None => [zeroV] | Some t => t end)
      else Dataset g d [] (match o_timesteps o with None => [zeroV] | Some t => t end)).
Definition exportedDataSet (grids : nat -> bgrid) (x : exported) (o : options) : res dataset :=
  match x with
  | ExportGrid n => objectToDataSet grids n None (Options (o_vids o) (o_eids o) false TNone None)
  | ExportFunction f => objectToDataSet grids (f_grid f) (Some [[f]]) o
  | ExportSeries l => s <-- get (hd_error l) ;;; f <-- get (hd_error s) ;;; objectToDataSet grids (f_grid f) (Some l) o
  end.
(** the ids are not passed to export_data_sets *)
Definition exportGmsh (binary : bool) (grids : nat -> bgrid) (x : exported) (o : options) : res text :=
  d <-- exportedDataSet grids x o ;;;
  fs <-- exportDataSets binary [d] None None ;;;
  match fs with [(_, f)] => Ok f | _ => Raise end.
End Io.
Arguments ExportGrid {io}. Arguments TNone {io}. Arguments TReal {io}. Arguments TImag {io}. Arguments TMagnitude {io}.
