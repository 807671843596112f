(** Model of grid segments.  /repo/lib/grid/grid_segment.cpp. *)
From Coq Require Import List ZArith Bool.
Import ListNotations.
Local Open Scope Z_scope.

(** std::set<int>: a strictly increasing list *)
Fixpoint sinsert (x : Z) (l : list Z) : list Z :=
  match l with
  | [] => [x]
  | y :: r => if x <? y then x :: l else if x =? y then l else y :: sinsert x r
  end.
Definition smem (x : Z) (l : list Z) : bool := existsb (Z.eqb x) l.
Definition setOf (l : list Z) : list Z := fold_left (fun s x => sinsert x s) l [].

(** grid_segment.hpp: m_entityCounts, m_excludedEntities, per codimension 0..3 *)
Record segment := Segment { counts : nat -> Z; excluded : nat -> list Z }.

(** grid_segment.cpp:269-276; [None] = std::invalid_argument *)
Definition contains (s : segment) (codim : Z) (index : Z) : option bool :=
  if (codim <? 0) || (3 <? codim) then None
  else let c := Z.to_nat codim in
    Some ((0 <=? index) && (index <? counts s c) && negb (smem index (excluded s c))).

(** 278-288; [None]: invalid codim, or acc() out of bounds *)
Fixpoint updZ (l : list Z) (i : nat) (v : Z) : option (list Z) :=
  match l, i with
  | [], _ => None
  | _ :: t, O => Some (v :: t)
  | h :: t, S j => match updZ t j v with Some t' => Some (h :: t') | None => None end
  end.
Fixpoint markLoop (marks : list Z) (ex : list Z) (mark : Z) : option (list Z) :=
  match ex with
  | [] => Some marks
  | x :: r => if x <? 0 then None else
      match updZ marks (Z.to_nat x) mark with Some m => markLoop m r mark | None => None end
  end.
Definition markExcludedEntities (s : segment) (codim mark : Z) : option (list Z) :=
  if (codim <? 0) || (3 <? codim) then None
  else let c := Z.to_nat codim in
    markLoop (repeat 0 (Z.to_nat (counts s c))) (excluded s c) mark.

(** 290-305: the loop over index with the iterator it (the remaining excluded entities);
    indices are inserted in increasing order *)
Fixpoint complementLoop (index : Z) (n : nat) (it : list Z) : list Z :=
  match n with
  | O => []
  | S n' =>
    match it with
    | [] => index :: complementLoop (index + 1) n' []
    | x :: r => if index <? x then index :: complementLoop (index + 1) n' it
                else complementLoop (index + 1) n' r
    end
  end.
Definition complement (s : segment) : segment :=
  Segment (counts s) (fun c => complementLoop 0 (Z.to_nat (counts s c)) (excluded s c)).
(** 307-320: std::set_intersection of the excluded sets *)
Definition union_ (s o : segment) : segment :=
  Segment (counts s) (fun c => filter (fun x => smem x (excluded o c)) (excluded s c)).
(** 327-340: std::set_union of the excluded sets *)
Definition intersection (s o : segment) : segment :=
  Segment (counts s) (fun c => fold_left (fun a x => sinsert x a) (excluded o c) (excluded s c)).
(** 322-325 *)
Definition difference (s o : segment) : segment := intersection s (complement o).

(** ---- domains (two-dimensional grids) ---- *)
(** An element: index, domain label, facets (index and the vertex indices of the facet, as
    given by the reference element), vertex indices. *)
Record selt := SElt { s_index : Z; s_dom : Z; s_facets : list (Z * list Z); s_verts : list Z }.
Record sgrid := SGrid { g_elts : list selt; g_n1 : Z; g_n2 : Z }.
Definition g_n0 (g : sgrid) : Z := Z.of_nat (length (g_elts g)).
Definition gridCounts (g : sgrid) (c : nat) : Z :=
  match c with 0%nat => g_n0 g | 1%nat => g_n1 g | 2%nat => g_n2 g | _ => 0 end.

(** 119-122 *)
Definition wholeGrid (g : sgrid) : segment := Segment (gridCounts g) (fun _ => []).

(** 152-183: neighbourElementCount is a vector of unsigned char (counts modulo 256) *)
Definition bump (f : Z -> Z) (k : Z) : Z -> Z := fun i => if i =? k then (f i + 1) mod 256 else f i.
Definition openStep (domains : list Z) (st : (Z -> Z) * (list Z * list Z * list Z)) (e : selt)
  : (Z -> Z) * (list Z * list Z * list Z) :=
  let '(cnt, (x0, x1, x2)) := st in
  if smem (s_dom e) domains then
    (fold_left bump (map fst (s_facets e)) cnt, (x0, x1, x2))
  else
    (cnt, (sinsert (s_index e) x0,
           fold_left (fun s x => sinsert x s) (map fst (s_facets e)) x1,
           fold_left (fun s x => sinsert x s) (s_verts e) x2)).
(** integers 0 .. n-1 *)
Definition zrange (n : Z) : list Z := map Z.of_nat (seq 0 (Z.to_nat n)).
(** 130-214 *)
Definition openDomain (g : sgrid) (domains : list Z) : segment :=
  let '(cnt, (x0, x1, x2)) := fold_left (openStep domains) (g_elts g) (fun _ => 0, ([], [], [])) in
  let boundary := filter (fun i => cnt i =? 1) (zrange (g_n1 g)) in
  let x1' := fold_left (fun s x => sinsert x s) boundary x1 in
  let x2' := fold_left (fun s e =>
               fold_left (fun s fc => if smem (fst fc) boundary
                                      then fold_left (fun s x => sinsert x s) (snd fc) s else s)
                         (s_facets e) s) (g_elts g) x2 in
  Segment (gridCounts g) (fun c => match c with 0%nat => x0 | 1%nat => x1' | 2%nat => x2' | _ => [] end).

(** 223-267: adjacentToDomain as sets of marked indices *)
Definition closedStep (domains : list Z) (st : list Z * list Z * list Z) (e : selt) : list Z * list Z * list Z :=
  let '(x0, a1, a2) := st in
  if smem (s_dom e) domains then (x0, map fst (s_facets e) ++ a1, s_verts e ++ a2)
  else (sinsert (s_index e) x0, a1, a2).
Definition closedDomain (g : sgrid) (domains : list Z) : segment :=
  let '(x0, a1, a2) := fold_left (closedStep domains) (g_elts g) ([], [], []) in
  Segment (gridCounts g) (fun c => match c with
    | 0%nat => x0
    | 1%nat => filter (fun i => negb (smem i a1)) (zrange (g_n1 g))
    | 2%nat => filter (fun i => negb (smem i a2)) (zrange (g_n2 g))
    | _ => [] end).
