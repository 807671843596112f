(** Positions of the vertices of the barycentric grid and of structured grids; exact reals.
    /repo/lib/grid/concrete_grid.hpp:229-265, structured_grid_factory.hpp:127-137. *)
From Coq Require Import Reals List Arith.
Import ListNotations.
From Verif Require Import BoxModel GridModel.
Local Open Scope R_scope.

(** concrete_grid.hpp:243-253 *)
Definition midpoint (p q : point) : point :=
  ((px p + px q) / 2, (py p + py q) / 2, (pz p + pz q) / 2).
(** 255-265 *)
Definition barycentre (p q r : point) : point :=
  ((px p + px q + px r) / 3, (py p + py q + py r) / 3, (pz p + pz q + pz r) / 3).
(** column n of barycentricVertices; [None]: no such column *)
Definition baryVertex (c : container) (P : nat -> point) (n : nat) : option point :=
  let V := c_nnodes c in let E := length (c_edges c) in
  if (n <? V)%nat then Some (P n)
  else if (n <? V + E)%nat then
    option_map (fun e => midpoint (P (fst e)) (P (snd e))) (nth_error (c_edges c) (n - V))
  else option_map (fun v => barycentre (P (enode v 0)) (P (enode v 1)) (P (enode v 2)))
                  (nth_error (c_elements c) (n - V - E)).

(** structured_grid_factory.hpp:129-134, dim = 2, dimworld = 3: the position of the vertex
    with multi-index (ix, iy) *)
Definition structuredPosition (lx ly ux uy : R) (nx ny : nat) (idx : nat * nat) : point :=
  (lx + INR (fst idx) * (ux - lx) / INR (nx + 1 - 1),
   ly + INR (snd idx) * (uy - ly) / INR (ny + 1 - 1), 0).
