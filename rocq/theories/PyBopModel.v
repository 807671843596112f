(** Model of /repo/python/bempp/api/assembly/boundary_operator.py: operators between function spaces with cached
    weak forms.  Objects are created once and never change except for their caches; they are kept in a list in order
    of creation and refer to older objects by position.
    Elementary and local operators (240-395): the assembly gives the discrete operator described by [expr] (normally a
    single ENonlocal, EDense or ESparse); assembly parameters are not changed between the calls.
    Labels and log messages are not modelled. *)
From Coq Require Import List Arith Bool.
Import ListNotations.
From Verif Require Import Base ArrayModel AsmModel MatAlg PyOpModel PyOpSpec.
Set Implicit Arguments.

(** spaces: grid, kind and order, the part of the grid and the other options of function_space, number of global dofs *)
Record space := Sp { s_grid : nat; s_kind : nat; s_part : nat; s_dofs : nat }.
(** space.py:57-61, 786-795: == compares the keys *)
Definition speq (a b : space) : bool := (s_grid a =? s_grid b) && (s_kind a =? s_kind b) && (s_part a =? s_part b) && (s_dofs a =? s_dofs b).
(** space.py:63-65 -> spaceIsCompatible of AdaptiveSpace, which wraps every space made by function_space
    (adaptive_space_impl.hpp:194-200): the numbers of global dofs are compared, nothing else *)
Definition compat (a b : space) : bool := s_dofs a =? s_dofs b.

Section PyBop.
  Variable K : star_ring.
  (** weak form of the identity from a space to a dual space *)
  Variable mass : space -> space -> mat K.

  Inductive node :=
  | NElem (d r t : space) (e : expr K)         (* 240-395, 584-649 *)
  | NZero (d r t : space)                      (* 197-219 *)
  | NSum (i j : nat)                           (* 473-492 *)
  | NScaled (i : nat) (c : K)                  (* 495-509 *)
  | NProd (i j : nat)                          (* 512-531 *)
  | NDual (i j : nat)                          (* 534-553 *)
  | NTrans (i : nat) (r : space)               (* 556-567 *)
  | NAdj (i : nat) (r : space)                 (* 570-581 *)
  | NReint (i : nat) (d r t : space)           (* 450-470 *)
  | NProj (i : nat) (d r t : space).           (* 398-447, with given spaces as in projection.py:29-48 *)
  Record obj := Obj { o_node : node; o_dom : space; o_ran : space; o_dual : space;
                      o_weak : option (dop K); o_map : option (dop K) }.
  Definition heap := list obj.
  Definition clearWeak (o : obj) : obj := Obj (o_node o) (o_dom o) (o_ran o) (o_dual o) None (o_map o).
  Definition setWeak (w : dop K) (o : obj) : obj := Obj (o_node o) (o_dom o) (o_ran o) (o_dual o) (Some w) (o_map o).
  Definition setMap (w : option (dop K)) (o : obj) : obj := Obj (o_node o) (o_dom o) (o_ran o) (o_dual o) (o_weak o) w.
  Fixpoint modify (h : heap) (i : nat) (f : obj -> obj) : heap :=
    match h, i with
    | [], _ => []
    | o :: r, 0 => f o :: r
    | o :: r, S k => o :: modify r k f
    end.
  (** a computation may change caches and raise an exception *)
  Definition comp := heap -> heap * res (dop K).
  Definition ret (r : res (dop K)) : comp := fun h => (h, r).
  Definition andThen (x : comp) (f : dop K -> comp) : comp :=
    fun h => let '(h1, r) := x h in match r with Ok w => f w h1 | Throws => (h1, Throws) | Undefined => (h1, Undefined) end.

  (** 123-150: the map to the range space *)
  Definition rangeMap (o : obj) : dop K :=
    if speq (o_ran o) (o_dual o) then Inverse (mass (o_dual o) (o_dual o)) else Inverse (mass (o_ran o) (o_dual o)).
  (** 123-152 *)
  Definition strongWith (weak : bool -> nat -> comp) (rc : bool) (i : nat) : comp := fun h =>
    match nth_error h i with
    | None => (h, Undefined)
    | Some o =>
      let m := match (if rc then None else o_map o) with Some m => m | None => rangeMap o end in
      andThen (weak rc i) (fun w => ret (pyMul m w)) (modify h i (setMap (Some m)))
    end.
  (** _weak_form_impl: 206-212, 424-447, 468-470, 490-492, 507-509, 529-531, 551-553, 565-567, 579-581 *)
  Definition weakImpl (weak : bool -> nat -> comp) (n : node) : comp :=
    match n with
    | NElem _ _ _ e => ret (build e)
    | NZero d _ t => ret (Ok (Zero (s_dofs t) (s_dofs d)))
    | NSum i j => andThen (weak false i) (fun x => andThen (weak false j) (fun y => ret (pyAdd x y)))
    | NScaled i c => andThen (weak false i) (fun x => ret (Ok (pyScale x c)))
    | NProd i j => andThen (weak false i) (fun x => andThen (strongWith weak false j) (fun y => ret (pyMul x y)))
    | NDual i j => andThen (strongWith weak false i) (fun x => andThen (ret (adjoint x)) (fun xh => andThen (weak false j) (fun y => ret (pyMul xh y))))
    | NTrans i _ => andThen (weak false i) (fun x => ret (transpose x))
    | NAdj i _ => andThen (weak false i) (fun x => ret (adjoint x))
    | NReint i _ _ _ => weak false i
    | NProj i d _ t => andThen (weak false i) (fun w h =>
        match nth_error h i with
        | None => (h, Undefined)
        | Some o =>
          andThen (if speq t (o_dual o) then ret (Ok w)
                   else andThen (ret (pyMul (Sparse (mass (o_dual o) t)) (Inverse (mass (o_dual o) (o_dual o))))) (fun p => ret (pyMul p w)))
            (fun w1 => if speq d (o_dom o) then ret (Ok w1)
                       else andThen (ret (pyMul (Inverse (mass (o_dom o) (o_dom o))) (Sparse (mass d (o_dom o))))) (fun p => ret (pyMul w1 p))) h
        end)
    end.
  (** 64-80; [fuel] bounds the depth of references *)
  Fixpoint weakForm (fuel : nat) (rc : bool) (i : nat) : comp := fun h =>
    match fuel, nth_error h i with
    | S f, Some o =>
      match (if rc then None else o_weak o) with
      | Some w => (h, Ok w)
      | None =>
        let h1 := if rc then modify h i clearWeak else h in
        andThen (weakImpl (weakForm f) (o_node o)) (fun w h2 => (modify h2 i (setWeak w), Ok w)) h1
      end
    | _, _ => (h, Undefined)
    end.
  Definition weak_form (rc : bool) (i : nat) : comp := fun h => weakForm (S (length h)) rc i h.
  Definition strong_form (rc : bool) (i : nat) : comp := fun h => strongWith (weakForm (S (length h))) rc i h.

  (** constructors *)
  Definition newObj (h : heap) (n : node) : res obj :=
    let at1 i f := match nth_error h i with Some o => f o | None => Undefined end in
    let mk d r t := Ok (Obj n d r t None None) in
    match n with
    | NElem d r t _ | NZero d r t => mk d r t
    | NSum i j => at1 i (fun a => at1 j (fun b =>
        if negb (compat (o_dom a) (o_dom b)) || negb (compat (o_ran a) (o_ran b)) || negb (compat (o_dual a) (o_dual b)) then Throws
        else mk (o_dom a) (o_ran a) (o_dual a)))
    | NScaled i _ => at1 i (fun a => mk (o_dom a) (o_ran a) (o_dual a))
    | NProd i j => at1 i (fun a => at1 j (fun b =>
        if negb (compat (o_ran b) (o_dom a)) then Throws else mk (o_dom b) (o_ran a) (o_dual a)))
    | NDual i j => at1 i (fun a => at1 j (fun b =>
        if negb (compat (o_dual b) (o_ran a)) then Throws else mk (o_dom b) (o_ran b) (o_dom a)))
    | NTrans i r | NAdj i r => at1 i (fun a => mk (o_dual a) r (o_dom a))
    | NReint i d r t | NProj i d r t => at1 i (fun a => mk d r t)
    end.
  Inductive cmd := CNew (n : node) | CWeak (rc : bool) (i : nat) | CStrong (rc : bool) (i : nat).
  (** one statement of a program; an exception leaves the changes made so far *)
  Definition step (h : heap) (c : cmd) : heap :=
    match c with
    | CNew n => match newObj h n with Ok o => h ++ [o] | _ => h end
    | CWeak rc i => fst (weak_form rc i h)
    | CStrong rc i => fst (strong_form rc i h)
    end.
  Definition run (cs : list cmd) : heap := fold_left step cs [].
End PyBop.
Arguments NElem {K}. Arguments NZero {K}. Arguments NSum {K}. Arguments NScaled {K}. Arguments NProd {K}. Arguments NDual {K}.
Arguments NTrans {K}. Arguments NAdj {K}. Arguments NReint {K}. Arguments NProj {K}.
Arguments CNew {K}. Arguments CWeak {K}. Arguments CStrong {K}. Arguments Obj {K}.
