(** Specification vocabulary for cluster trees and block cluster trees: which nodes a
    tree has, its leaves from left to right, sizes, and which matrix entries a block
    covers.  Independent of how the trees are built. *)
From Verif Require Import Base HMatTreeModel.
Set Implicit Arguments.

(** Node [s] occurs in tree [t] at depth [k]. *)
Inductive occurs {T} : nat -> stree T -> stree T -> Prop :=
| occ_here : forall t, occurs 0 t t
| occ_child : forall k s d ch c, In c ch -> occurs k s c -> occurs (S k) s (SNode d ch).

(** Leaves from left to right. *)
Fixpoint dfs_leaves {T} (t : stree T) : list (stree T) :=
  match t with
  | SNode _ [] => [t]
  | SNode _ ch => flat_map dfs_leaves ch
  end.

(** Number of dofs of a cluster. *)
Definition size_of {G} (t : stree (cdata G)) : nat := chi (sdata t) - clo (sdata t).

(** Index [i] lies in the half-open range of a cluster. *)
Definition in_range {G} (d : cdata G) (i : nat) : bool := (clo d <=? i) && (i <? chi d).

(** The block [s] contains the matrix entry (i,j) (H-matrix numbering). *)
Definition covers {G} (i j : nat) (s : stree (bdata G)) : bool :=
  in_range (sdata (brow (sdata s))) i && in_range (sdata (bcol (sdata s))) j.
