(** Model of the FMM octree.  /repo/lib/fmm/octree_impl.hpp, interaction_list_impl.hpp.
    unsigned long values are N; all values occurring for levels <= 10 are below 2^33, so
    64-bit wrap-around is not modelled. *)
From Coq Require Import List NArith ZArith Bool.
Import ListNotations.
Local Open Scope N_scope.

(** octree_impl.hpp:228-243; [None] = std::invalid_argument *)
Definition dilate3_bits (x : N) : N :=
  let x := N.land (N.lor x (N.shiftl x 16)) 0x030000FF in
  let x := N.land (N.lor x (N.shiftl x 8)) 0x0300F00F in
  let x := N.land (N.lor x (N.shiftl x 4)) 0x030C30C3 in
  N.land (N.lor x (N.shiftl x 2)) 0x09249249.
Definition dilate3 (x : N) : option N :=
  if 0x3FF <? x then None else Some (dilate3_bits x).

(** octree_impl.hpp:246-258 *)
Definition contract3 (x : N) : N :=
  let x := N.land x 0x09249249 in
  let x := N.land (N.lor x (N.shiftr x 2)) 0x030C30C3 in
  let x := N.land (N.lor x (N.shiftr x 4)) 0x0300F00F in
  let x := N.land (N.lor x (N.shiftr x 8)) 0x030000FF in
  N.land (N.lor x (N.shiftr x 16)) 0x000003FF.

(** octree_impl.hpp:260-274 *)
Definition morton (x y z : N) : option N :=
  match dilate3 x, dilate3 y, dilate3 z with
  | Some a, Some b, Some c => Some (N.lor (N.lor a (N.shiftl b 1)) (N.shiftl c 2))
  | _, _, _ => None
  end.
Definition deMorton (n : N) : N * N * N :=
  (contract3 n, contract3 (N.shiftr n 1), contract3 (N.shiftr n 2)).

(** octree_impl.hpp:89-107 (1 << level is computed in int: level <= 30, and 3*level <= 30) *)
Definition getParent (n : N) : N := N.shiftr n 3.
Definition getFirstChild (n : N) : N := N.shiftl n 3.
Definition getLastChild (n : N) : N := N.shiftl n 3 + 7.
Definition getNodesPerSide (level : N) : N := N.shiftl 1 level.
Definition getNodesPerLevel (level : N) : N := N.shiftl 1 (3 * level).

(** octree_impl.hpp:195-220: indx + i is computed modulo 2^64 and converted to long, i.e.
    it is the integer indx + i. *)
Definition inRange (sides : N) (a b c : Z) : bool :=
  ((0 <=? a) && (a <? Z.of_N sides) && ((0 <=? b) && (b <? Z.of_N sides))
   && ((0 <=? c) && (c <? Z.of_N sides)))%Z%bool.
Definition offsets : list (Z * Z * Z) :=
  flat_map (fun i => flat_map (fun j => map (fun k => (i, j, k)) [-1; 0; 1]%Z) [-1; 0; 1]%Z) [-1; 0; 1]%Z.
Fixpoint neighbor_loop (x y z : N) (sides : N) (offs : list (Z * Z * Z)) : option (list N) :=
  match offs with
  | [] => Some []
  | (i, j, k) :: rest =>
    if ((i =? 0) && (j =? 0) && (k =? 0))%Z%bool then neighbor_loop x y z sides rest
    else
      let a := (Z.of_N x + i)%Z in let b := (Z.of_N y + j)%Z in let c := (Z.of_N z + k)%Z in
      if inRange sides a b c then
        match morton (Z.to_N a) (Z.to_N b) (Z.to_N c), neighbor_loop x y z sides rest with
        | Some m, Some l => Some (m :: l)
        | _, _ => None
        end
      else neighbor_loop x y z sides rest
  end.
Definition getNeighbors (n level : N) : option (list N) :=
  let '(x, y, z) := deMorton n in neighbor_loop x y z (getNodesPerSide level) offsets.

(** interaction_list_impl.hpp:9-37; [isEmpty] is Octree::isEmpty. The vector filled by the
    constructor is what begin..finished iteration (39-48) enumerates. *)
Fixpoint range (first : N) (count : nat) : list N :=
  match count with O => [] | S k => first :: range (first + 1) k end.
Definition interactionList (isEmpty : N -> N -> bool) (index level : N) : option (list N) :=
  if 1 <? level then
    match getNeighbors (getParent index) (level - 1), getNeighbors index level with
    | Some pn, Some nb =>
      Some (flat_map (fun q =>
        filter (fun c => negb (isEmpty c level) && negb (existsb (N.eqb c) nb))
               (range (getFirstChild q) 8)) pn)
    | _, _ => None
    end
  else Some [].

(** octree_impl.hpp:43-79: the node sets and the leaf-to-entity map.  An entity is given
    by its leaf index (getLeafContainingPoint of its centroid); entities are numbered in
    iteration order.  m_Nodes[k] is the list of inserted indices (a set).
    [None] : m_levels = 0, m_Nodes[m_levels - 1] is out of bounds. *)
Record octree := { levels : nat; nodes : nat -> list N; leafEntities : N -> list nat }.
Definition ins (f : nat -> list N) (k : nat) (n : N) : nat -> list N :=
  fun j => if Nat.eqb j k then n :: f j else f j.
Definition memb (n : N) (l : list N) : bool := existsb (N.eqb n) l.
(** lines 66-70: for (level = m_levels; level >= 1; level--) *)
Fixpoint markParents (level : nat) (parent : N) (f : nat -> list N) : nat -> list N :=
  match level with
  | O => f
  | S k => let p := getParent parent in markParents k p (ins f k p)
  end.
Definition addEntity (L : nat) (st : (nat -> list N) * (N -> list nat)) (e : nat * N)
  : (nat -> list N) * (N -> list nat) :=
  let '(f, g) := st in
  let '(idx, leaf) := e in
  let f' := if memb leaf (f (L - 1)%nat) then f
            else markParents L leaf (ins f (L - 1)%nat leaf) in
  (f', fun n => if n =? leaf then g n ++ [idx] else g n).
Definition buildOctree (L : nat) (leafs : list N) : option octree :=
  if Nat.eqb L 0 then None
  else
    let '(f, g) := fold_left (addEntity L) (combine (seq 0 (length leafs)) leafs)
                             (fun _ => [], fun _ => []) in
    Some {| levels := L; nodes := f; leafEntities := g |}.
(** octree_impl.hpp:131-134 *)
Definition isEmpty (o : octree) (n : N) (level : nat) : bool := negb (memb n (nodes o (level - 1)%nat)).
