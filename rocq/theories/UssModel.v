(** The space spanned by the unit function: /repo/lib/space/unit_scalar_space.cpp 115-150 (assignDofsImpl), 152-190 (dof maps),
    192-226 (positions), 258-322 (bounding boxes); lib/fiber/constant_scalar_shapeset.hpp 41-64.  [indices] lists mapper.entityIndex
    of the elements in iteration order. *)
From Coq Require Import List Arith Reals.
Import ListNotations.
From Verif Require Import Base BoxModel GridGeomModel.
Set Implicit Arguments.
Unset Strict Implicit.

(** 119-144: the loop; None: an index outside m_local2globalDofs *)
Fixpoint assignLoop (indices : list nat) (l2g : list (list nat)) (localDofs : list (nat * nat)) : option (list (list nat) * list (nat * nat)) :=
  match indices with
  | [] => Some (l2g, localDofs)
  | i :: r => match upd l2g i [0] with None => None | Some l => assignLoop r l (localDofs ++ [(i, 0)]) end
  end.
Record dofs := { local2global : list (list nat); global2local : list (list (nat * nat)) }.
Definition assignDofs (indices : list nat) (elementCount : nat) : option dofs :=
  option_map (fun p => {| local2global := fst p; global2local := [snd p] |}) (assignLoop indices (repeat [] elementCount) []).
(** 147-150 *)
Definition globalDofCount (d : dofs) : nat := length (global2local d).
(** 157-163: getGlobalDofs of the element with this index; None: out of bounds *)
Definition getGlobalDofs (d : dofs) (index : nat) : option (list nat) := nth_error (local2global d) index.
(** 166-173 *)
Definition global2localDofs (d : dofs) (gs : list nat) : list (option (list (nat * nat))) := map (nth_error (global2local d)) gs.
(** 176-184 *)
Definition flatLocal2localDofs (fs : list nat) : list (nat * nat) := map (fun f => (f, 0)) fs.

Local Open Scope R_scope.
(** an element is the triple of its corners; getCenter is their mean, getCorners lists them *)
Definition triangle := (point * point * point)%type.
Definition center (t : triangle) : point := let '(p, q, r) := t in barycentre p q r.
Definition cornersOf (t : triangle) : list point := let '(p, q, r) := t in [p; q; r].
Definition addPoint (a b : point) : point := (px a + px b, py a + py b, pz a + pz b).
Definition divPoint (a : point) (k : R) : point := (px a / k, py a / k, pz a / k).
(** 192-226 *)
Definition dofPosition (elements : list triangle) : point :=
  divPoint (fold_left (fun s t => addPoint s (center t)) elements (0, 0, 0)) (INR (length elements)).
(** 258-290; [M] is numeric_limits::max() *)
Definition widen (b : point * point) (c : point) : point * point :=
  ((Rmin (px (fst b)) (px c), Rmin (py (fst b)) (py c), Rmin (pz (fst b)) (pz c)),
   (Rmax (px (snd b)) (px c), Rmax (py (snd b)) (py c), Rmax (pz (snd b)) (pz c))).
(** (reference, (lbound, ubound)) *)
Definition dofBoundingBox (M : R) (elements : list triangle) : point * (point * point) :=
  let '(s, b) := fold_left (fun sb t => (addPoint (fst sb) (center t), fold_left widen (cornersOf t) (snd sb))) elements
                           ((0, 0, 0), ((M, M, M), (- M, - M, - M))) in
  (divPoint s (INR (length elements)), b).
