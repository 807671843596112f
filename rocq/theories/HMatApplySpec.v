(** Specification of the operator represented by an H-matrix. *)
From Verif Require Import Base HMatTreeModel HMatApplyModel.
Set Implicit Arguments.

Section Spec.
  Variable K : star_ring.
  Local Open Scope sr_scope.

  (** entry (i,k) of a leaf block *)
  Definition hentry (d : hdata K) (i k : nat) : K :=
    match d with
    | Dense _ _ A => A i k
    | LowRank _ ac A _ _ B => bsum (seq 0 ac) (fun q => A i q * B q k)
    end.

  (** the block data has the shape of the leaf (rank-0 blocks may have any shape) *)
  Definition hd_shape (d : hdata K) (rows cols : nat) : Prop :=
    match d with
    | Dense r c _ => r = rows /\ c = cols
    | LowRank ar ac _ br bc _ => ac = 0%nat \/ (ar = rows /\ bc = cols /\ br = ac)
    end.

  (** op(M): identity, transpose, conjugate, conjugate transpose *)
  Definition op (t : tmode) (M : mat K) : mat K :=
    match t with
    | NOTRANS => M
    | TRANS => fun i k => M k i
    | CONJ => fun i k => conj (M i k)
    | CONJTRANS => fun i k => conj (M k i)
    end.

  (** [M] (rows and columns in ORIGINAL dof numbering) is the matrix stored in the
      leaves: wherever leaf [id] covers the H-matrix position of (i,j), M i j is the
      entry of the leaf's block. *)
  Definition represents (leafs : list leafblk) (blk : nat -> hdata K) (pr pc : dofperm)
             (nr nc : nat) (M : mat K) : Prop :=
    forall id b i j h g, (i < nr)%nat -> (j < nc)%nat ->
      nth_error leafs id = Some b ->
      nth_error (o2h pr) i = Some h -> nth_error (o2h pc) j = Some g ->
      (r0 b <= h < r1 b)%nat -> (c0 b <= g < c1 b)%nat ->
      M i j = hentry (blk id) (h - r0 b) (g - c0 b).

  (** [p] is a permutation of [0,n) in both directions. *)
  Definition perm_ok (p : dofperm) (n : nat) : Prop :=
    length (o2h p) = n /\ length (h2o p) = n /\
    (forall i, (i < n)%nat -> exists h, (h < n)%nat /\ nth_error (o2h p) i = Some h /\ nth_error (h2o p) h = Some i) /\
    (forall h, (h < n)%nat -> exists i, (i < n)%nat /\ nth_error (h2o p) h = Some i /\ nth_error (o2h p) i = Some h).

  (** the leaves cover every entry exactly once and stay inside the matrix *)
  Definition blk_covers (b : leafblk) (h g : nat) : bool :=
    ((r0 b <=? h) && (h <? r1 b) && ((c0 b <=? g) && (g <? c1 b)))%nat.
  Definition tiling (leafs : list leafblk) (nr nc : nat) : Prop :=
    (forall h g, (h < nr)%nat -> (g < nc)%nat ->
       length (filter (fun b => blk_covers b h g) leafs) = 1%nat) /\
    (forall b, In b leafs -> (r1 b <= nr)%nat /\ (c1 b <= nc)%nat).
End Spec.
