(** Entities by index and by insertion index:
    /repo/python/bempp/api/grid/grid_view.py 111-143 (element_from_index, vertex_from_index, edge_from_index: the same code),
    /repo/cython/bempp/core/grid/grid.pyx 103-128 (element_from_insertion_index, vertex_from_insertion_index: the same code),
    /repo/lib/grid/concrete_grid.hpp 391-415. *)
From Coq Require Import List Arith ZArith Bool.
Import ListNotations.
Set Implicit Arguments.

(** what a call returns: a value, or an exception *)
Inductive outcome (A : Type) := Returns (a : A) | Raises.
Arguments Raises {A}.

Section Entities.
  Variable E : Type.
  (** the entities of one codimension in iteration order, entity_count, IndexSet.entity_index, and the insertion index (None:
      the grid has no factory, so that asking for it throws) *)
  Variable ents : list E.
  Variable count : nat.
  Variable index : E -> nat.
  Variable insertion : E -> option nat.

  (** l[i] of a Python list *)
  Definition pyIndex {A} (l : list A) (i : Z) : option A :=
    let n := Z.of_nat (length l) in
    if (0 <=? i)%Z && (i <? n)%Z then nth_error l (Z.to_nat i)
    else if (- n <=? i)%Z && (i <? 0)%Z then nth_error l (Z.to_nat (i + n)) else None.
  Fixpoint setNth {A} (l : list A) (i : nat) (v : A) : option (list A) :=
    match l, i with
    | [], _ => None
    | _ :: r, O => Some (v :: r)
    | a :: r, S j => option_map (cons a) (setNth r j v)
    end.

  (** grid_view.py 113-118: the map, as far as it is filled, and whether the loop ends without an exception *)
  Fixpoint reverseLoop (es : list E) (map : list (option E)) : list (option E) * bool :=
    match es with
    | [] => (map, true)
    | e :: r => match setNth map (index e) (Some e) with None => (map, false) | Some m => reverseLoop r m end
    end.
  (** 111-120; the state is _reverse_element_map.  Entries that were never set are None objects, which are returned as such *)
  Definition fromIndex (st : option (list (option E))) (i : Z) : option (list (option E)) * outcome (option E) :=
    let (m, ok) := match st with Some m => (m, true) | None => reverseLoop ents (repeat None count) end in
    (Some m, if ok then match pyIndex m i with Some x => Returns x | None => Raises end else Raises).

  (** grid.pyx 103-115: the dictionary (the latest entry for a key counts), the local variable index, and whether the loop ends *)
  Fixpoint insertionLoop (es : list E) (d : list (nat * E)) (idx : Z) : list (nat * E) * Z * bool :=
    match es with
    | [] => (d, idx, true)
    | e :: r => match insertion e with
                | None => (d, idx, false)
                | Some k => insertionLoop r ((k, e) :: d) (Z.of_nat k)
                end
    end.
  Definition lookupKey (d : list (nat * E)) (i : Z) : option E :=
    option_map snd (find (fun p => (Z.of_nat (fst p) =? i)%Z) d).
  (** the loop assigns to the parameter [index]; what follows looks up its new value *)
  Definition fromInsertionIndex (st : option (list (nat * E))) (i : Z) : option (list (nat * E)) * outcome E :=
    let '(d, idx, ok) := match st with Some d => (d, i, true) | None => insertionLoop ents [] i end in
    (Some d, if ok then match lookupKey d idx with Some e => Returns e | None => Raises end else Raises).

  (** a history of calls on one object, starting with empty caches *)
  Fixpoint history {S O} (f : S -> Z -> S * O) (st : S) (calls : list Z) : list O :=
    match calls with
    | [] => []
    | i :: r => let (st', o) := f st i in o :: history f st' r
    end.
End Entities.
