(** Model of the blocked operators of /repo/python/bempp/api/assembly/blocked_operator.py:1-453: mutable arrays of
    boundary operators, their sums, multiples and products, with cached weak forms and range maps.
    A block is given by its spaces and its discretisation (boundary operators do not change, see C56).
    [self._ndims] is always the pair of the lengths of the lists of spaces and [self._rows], [self._cols] tell which
    entries of these lists are set (208-211, 240-246), so they are not stored separately.  Negative indices are not
    modelled. *)
From Coq Require Import List Arith Bool.
Import ListNotations.
From Verif Require Import Base ArrayModel AsmModel QuadModel MatAlg PyOpModel PyOpSpec PyBopModel PyBlockModel.
Set Implicit Arguments.

Section PyBbop.
  Variable K : star_ring.
  (** weak form of the identity from a space to a dual space *)
  Variable mass : space -> space -> mat K.

  Record blk := Blk { b_dom : space; b_ran : space; b_dual : space; b_disc : expr K }.
  Inductive bnode :=
  | MBlk (ops : list (list (option blk))) (ran dual dom : list (option space))   (* 194-302 *)
  | MSum (i j : nat)                                                            (* 305-355 *)
  | MScaled (i : nat) (c : K)                                                   (* 414-453 *)
  | MProd (i j : nat).                                                          (* 358-411 *)
  Record bobj := BObj { bo_node : bnode; bo_weak : option (bop K); bo_map : option (blocked K) }.
  Definition bheap := list bobj.
  Fixpoint modifyAt (h : bheap) (i : nat) (f : bobj -> bobj) : bheap :=
    match h, i with
    | [], _ => []
    | o :: r, 0 => f o :: r
    | o :: r, S k => o :: modifyAt r k f
    end.
  Definition setBWeak (w : option (bop K)) (o : bobj) : bobj := BObj (bo_node o) w (bo_map o).
  Definition setBMap (m : option (blocked K)) (o : bobj) : bobj := BObj (bo_node o) (bo_weak o) m.
  Definition setNode (n : bnode) (o : bobj) : bobj := BObj n (bo_weak o) (bo_map o).

  (** 288-302, 341-355, 397-411, 439-453: (range, dual to range, domain) spaces *)
  Definition sp3 := (list (option space) * list (option space) * list (option space))%type.
  Fixpoint spacesAt (f : nat) (h : bheap) (i : nat) : option sp3 :=
    match f, nth_error h i with
    | S f', Some o =>
      match bo_node o with
      | MBlk _ r d c => Some (r, d, c)
      | MSum a _ | MScaled a _ => spacesAt f' h a
      | MProd a b => match spacesAt f' h a, spacesAt f' h b with
                     | Some (r, d, _), Some (_, _, c) => Some (r, d, c)
                     | _, _ => None
                     end
      end
    | _, _ => None
    end.

  Definition bcomp := bheap -> bheap * res (bop K).
  Definition bret (r : res (bop K)) : bcomp := fun h => (h, r).
  Definition bthen (x : bcomp) (f : bop K -> bcomp) : bcomp :=
    fun h => let '(h1, r) := x h in match r with Ok w => f w h1 | Throws => (h1, Throws) | Undefined => (h1, Undefined) end.

  (** 67-88: row [index] of the array of range maps; an index beyond the number of columns raises IndexError, an
      unset space AttributeError *)
  Definition rangeRow (n : nat) (q : nat * (option space * option space)) : res (list (option (dop K))) :=
    match snd q with
    | (Some r, Some d) =>
      if fst q <? n then
        let inv := if speq r d then Inverse (mass d d) else Inverse (mass r d) in
        Ok (map (fun j => if j =? fst q then Some inv else None) (seq 0 n))
      else Throws
    | _ => Throws
    end.
  (** 65-90 *)
  Definition newRangeMap (s : sp3) : res (blocked K) :=
    let '(r, d, c) := s in
    bind (mapRes (rangeRow (length c)) (combine (seq 0 (length r)) (combine r d))) (@mkBlocked K).
  (** 256-258, 276-280: only in BlockedOperator *)
  Definition isSet (s : option space) : bool := match s with Some _ => true | None => false end.
  Definition complete (n : bnode) : bool :=
    match n with MBlk _ r _ c => forallb isSet c && forallb isSet r | _ => true end.
  (** 53-92, 276-282 *)
  Definition bstrongWith (weak : bool -> nat -> bcomp) (rc : bool) (i : nat) : bcomp := fun h =>
    match nth_error h i with
    | None => (h, Undefined)
    | Some o =>
      if negb (complete (bo_node o)) then (h, Throws) else
      let h0 := if rc then modifyAt h i (setBMap None) else h in
      let finish m := bthen (weak rc i) (fun w => bret (bMul (BLeaf m) w)) in
      match (if rc then None else bo_map o) with
      | Some m => finish m h0
      | None =>
        match spacesAt (S (length h)) h i with
        | None => (h0, Undefined)
        | Some s =>
          match newRangeMap s with
          | Ok m => finish m (modifyAt h0 i (setBMap (Some m)))
          | Throws => (h0, Throws)
          | Undefined => (h0, Undefined)
          end
        end
      end
    end.
  (** 260-274, 336-337, 381-382, 422-423 *)
  Definition buildBlk (b : option blk) : res (option (dop K)) :=
    match b with None => Ok None | Some b => bind (build (b_disc b)) (fun o => Ok (Some o)) end.
  Definition bweakImpl (weak : bool -> nat -> bcomp) (n : bnode) : bcomp :=
    match n with
    | MBlk ops _ _ _ =>
        if complete n then bret (bind (mapRes (mapRes buildBlk) ops) (fun l => bind (mkBlocked l) (fun b => Ok (BLeaf b))))
        else bret Throws
    | MSum i j => bthen (weak false i) (fun x => bthen (weak false j) (fun y => bret (bAdd x y)))
    | MScaled i c => bthen (weak false i) (fun x => bret (Ok (bScale x c)))
    | MProd i j => bthen (weak false i) (fun x => bthen (bstrongWith weak false j) (fun y => bret (bMul x y)))
    end.
  (** 34-51; [fuel] bounds the depth of references *)
  Fixpoint bweakForm (fuel : nat) (rc : bool) (i : nat) : bcomp := fun h =>
    match fuel, nth_error h i with
    | S f, Some o =>
      match (if rc then None else bo_weak o) with
      | Some w => (h, Ok w)
      | None =>
        let h1 := if rc then modifyAt h i (setBWeak None) else h in
        bthen (bweakImpl (bweakForm f) (bo_node o)) (fun w h2 => (modifyAt h2 i (setBWeak (Some w)), Ok w)) h1
      end
    | _, _ => (h, Undefined)
    end.
  Definition bweak_form (rc : bool) (i : nat) : bcomp := fun h => bweakForm (S (length h)) rc i h.
  Definition bstrong_form (rc : bool) (i : nat) : bcomp := fun h => bstrongWith (bweakForm (S (length h))) rc i h.

  (** 218-246: __setitem__; other classes have none *)
  Definition clash (s : option space) (t : space) : bool := match s with Some s => negb (speq t s) | None => false end.
  Fixpoint setNth {A} (l : list A) (i : nat) (v : A) : list A :=
    match l, i with [], _ => [] | _ :: r, 0 => v :: r | x :: r, S k => x :: setNth r k v end.
  Definition setItem (n : bnode) (r c : nat) (b : blk) : res bnode :=
    match n with
    | MBlk ops ran dual dom =>
      match nth_error ops r, nth_error ran r, nth_error dual r, nth_error dom c with
      | Some row, Some sr, Some sd, Some sc =>
        if clash sr (b_ran b) || clash sd (b_dual b) || clash sc (b_dom b) then Throws
        else Ok (MBlk (setNth ops r (setNth row c (Some b))) (setNth ran r (Some (b_ran b)))
                      (setNth dual r (Some (b_dual b))) (setNth dom c (Some (b_dom b))))
      | _, _, _, _ => Throws
      end
    | _ => Throws
    end.
  (** the comparisons of spaces in 313-330 and 366-370; None equals only None *)
  Definition sameSpace (a b : option space) : bool :=
    match a, b with Some s, Some t => speq s t | None, None => true | _, _ => false end.
  Definition sameSpaces (l m : list (option space)) : bool :=
    (length l =? length m) && forallb (fun p => sameSpace (fst p) (snd p)) (combine l m).
  Inductive bcmd :=
  | BNew (m n : nat) | BAdd (i j : nat) | BScl (i : nat) (c : K) | BMul (i j : nat)
  | BSet (i r c : nat) (b : blk) | BWeak (rc : bool) (i : nat) | BStrong (rc : bool) (i : nat).
  (** one statement of a program; an exception leaves the changes made so far *)
  Definition bstep (h : bheap) (c : bcmd) : bheap :=
    let sp i := spacesAt (S (length h)) h i in
    match c with
    | BNew m n => h ++ [BObj (MBlk (repeat (repeat None n) m) (repeat None m) (repeat None m) (repeat None n)) None None]   (* 197-206 *)
    | BAdd i j =>
        match sp i, sp j with
        | Some (r, d, c), Some (r', d', c') =>
          if sameSpaces r r' && sameSpaces d d' && sameSpaces c c' then h ++ [BObj (MSum i j) None None] else h
        | _, _ => h
        end
    | BScl i c => match sp i with Some _ => h ++ [BObj (MScaled i c) None None] | None => h end
    | BMul i j =>
        match sp i, sp j with
        | Some (_, _, c), Some (r', _, _) => if sameSpaces c r' then h ++ [BObj (MProd i j) None None] else h
        | _, _ => h
        end
    | BSet i r c b =>
        match nth_error h i with
        | Some o => match setItem (bo_node o) r c b with Ok n => modifyAt h i (setNode n) | _ => h end
        | None => h
        end
    | BWeak rc i => fst (bweak_form rc i h)
    | BStrong rc i => fst (bstrong_form rc i h)
    end.
  Definition brun (cs : list bcmd) : bheap := fold_left bstep cs [].
  (** what the objects are, without their caches *)
  Definition nodes (h : bheap) : list bnode := map bo_node h.
End PyBbop.
Arguments MBlk {K}. Arguments MSum {K}. Arguments MScaled {K}. Arguments MProd {K}. Arguments BObj {K}. Arguments Blk {K}.
Arguments BNew {K}. Arguments BAdd {K}. Arguments BScl {K}. Arguments BMul {K}. Arguments BSet {K}. Arguments BWeak {K}. Arguments BStrong {K}.
