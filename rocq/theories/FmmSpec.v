(** Geometry of the octree: a node of level l is a triple of integer coordinates below
    2^l; nodes are adjacent if their coordinates differ by at most one. *)
From Coq Require Import NArith ZArith.
From Verif Require Import FmmModel.
Local Open Scope N_scope.

Definition cx (n : N) : N := fst (fst (deMorton n)).
Definition cy (n : N) : N := snd (fst (deMorton n)).
Definition cz (n : N) : N := snd (deMorton n).

Definition near (a b : N) : Prop := a <= b + 1 /\ b <= a + 1.
Definition adjacent (m n : N) : Prop := near (cx m) (cx n) /\ near (cy m) (cy n) /\ near (cz m) (cz n).
(** node numbers of level l *)
Definition onLevel (l n : N) : Prop := n < 8 ^ l.
(** ancestor, k levels up *)
Definition ancestor (k n : N) : N := n / 8 ^ k.
