(** Specifications for C176-C178, independent of the model's functions. *)
From Coq Require Import List Arith ZArith Reals Permutation.
Import ListNotations.
From Verif Require Import EdaModel BoxModel.
Set Implicit Arguments.
Unset Strict Implicit.

(** Dune's guarantee: n entities have the indices 0, ..., n-1 and the insertion indices 0, ..., n-1 in some orders *)
Definition numbers (order : list (nat * nat)) (n : nat) : Prop :=
  Permutation (map fst order) (seq 0 n) /\ Permutation (map snd order) (seq 0 n).
Definition validNumbering (n : numbering) (vertices elements : nat) : Prop :=
  numbers (vertexOrder n) vertices /\ numbers (elementOrder n) elements.

(** column j of an array with three rows *)
Definition column A (a : array A) (j : nat) : A * A * A := (at_ a 0 j, at_ a 1 j, at_ a 2 j).
(** every corner of every element is the number of a column of the vertices *)
Definition cornersInRange (elements : array Z) (nv : nat) : Prop :=
  forall i j, i < 3 -> j < cols elements -> (0 <= at_ elements i j < Z.of_nat nv)%Z.
Definition domainsMatch (domains : list nat) (elements : array Z) : Prop := domains = [] \/ length domains = cols elements.

(** a point (u, v) of the plane grid, placed in the plane of the two axes at [offset] on the third; and the third axis, with the
    sign that the orientation of the elements has *)
Definition placed (ax : axis) (offset u v : R) : point :=
  match ax with XY => (u, v, offset) | XZ => (u, offset, v) | _ => (offset, u, v) end.
Definition axisNormal (ax : axis) (s : R) : point :=
  match ax with XY => (0, 0, s) | XZ => (0, - s, 0) | _ => (s, 0, 0) end%R.

(** the cells of the structured grid; the point of lattice position (x, y); the two triangles of a cell *)
Definition cells (nx ny : nat) : list (nat * nat) := list_prod (seq 0 nx) (seq 0 ny).
Definition latticePoint (ax : axis) (offset lx ly ux uy : R) (nx ny x y : nat) : point :=
  placed ax offset (lx + INR x * ((ux - lx) / INR nx)) (ly + INR y * ((uy - ly) / INR ny)).
Definition cellTriangles (P : nat -> nat -> point) (c : nat * nat) : list (point * point * point) :=
  let (x, y) := c in [(P x y, P (x + 1) y, P (x + 1) (y + 1)); (P x y, P (x + 1) (y + 1), P x (y + 1))].
(** the positions of the corners of an element *)
Definition triangleOf (vertices : list point) (e : nat * nat * nat) : option (point * point * point) :=
  match e with (a, b, c) =>
    match nth_error vertices a, nth_error vertices b, nth_error vertices c with
    | Some p, Some q, Some r => Some (p, q, r) | _, _, _ => None
    end
  end.
(** the vector product of the sides of a triangle: its direction is the triangle's normal, its length twice the area *)
Definition normalVector (t : point * point * point) : point :=
  match t with (p, q, r) =>
    let a := px q - px p in let b := py q - py p in let c := pz q - pz p in
    let d := px r - px p in let e := py r - py p in let f := pz r - pz p in
    (b * f - c * e, c * d - a * f, a * e - b * d)
  end%R.
