(** Model of the H-matrix cluster trees and block cluster trees.
    /repo/lib/hmat/simple_tree_node_impl.hpp, dof_permutation_impl.hpp,
    cluster_tree_impl.hpp, block_cluster_tree_impl.hpp, common_impl.hpp. *)
From Verif Require Import Base.
Set Implicit Arguments.

(** simple_tree_node_impl.hpp:17-61.  A node with its data and its children.
    Simplification: the C++ node has an array of N nullable child pointers; the
    model keeps the list of the non-null ones in slot order (every routine
    modelled below either sets all slots or none). Parent pointers are omitted. *)
Inductive stree (T : Type) : Type := SNode (d : T) (ch : list (stree T)).
Arguments SNode {T}.

Definition sdata {T} (t : stree T) : T := match t with SNode d _ => d end.
Definition schildren {T} (t : stree T) : list (stree T) := match t with SNode _ c => c end.

(** simple_tree_node_impl.hpp:77-84 (isLeaf: no non-null child). *)
Definition isLeaf {T} (t : stree T) : bool :=
  match schildren t with [] => true | _ => false end.

Fixpoint tree_size {T} (t : stree T) : nat :=
  match t with SNode _ ch => S (list_sum (map tree_size ch)) end.

(** simple_tree_node_impl.hpp:86-136 (leafNodes): breadth-first queue loop.
    [None] = fuel exhausted (never happens, see HMatTreeProofs). *)
Fixpoint bfs {T} (fuel : nat) (queue acc : list (stree T)) : option (list (stree T)) :=
  match fuel with
  | O => match queue with [] => Some acc | _ => None end
  | S k =>
    match queue with
    | [] => Some acc
    | cur :: rest =>
      if isLeaf cur then bfs k rest (acc ++ [cur])
      else bfs k (rest ++ schildren cur) acc
    end
  end.
Definition leafNodes {T} (t : stree T) : option (list (stree T)) :=
  bfs (tree_size t) [t] [].

(** simple_tree_node_impl.hpp:181-193 (numberOfLeafs). *)
Fixpoint numberOfLeafs {T} (t : stree T) : nat :=
  match t with
  | SNode _ [] => 1
  | SNode _ ch => fold_left (fun res c => res + numberOfLeafs c) ch 0
  end.

(** dof_permutation_impl.hpp:10-12, 30-35.  Two vectors of length n, zero filled;
    [addDofIndexPair] writes both; [None] = write out of bounds (UB). *)
Record dofperm := { o2h : list nat; h2o : list nat }.
Definition dofperm_init (n : nat) : dofperm := {| o2h := repeat 0 n; h2o := repeat 0 n |}.
Definition addDofIndexPair (p : dofperm) (orig hm : nat) : option dofperm :=
  match upd (o2h p) orig hm, upd (h2o p) hm orig with
  | Some a, Some b => Some {| o2h := a; h2o := b |}
  | _, _ => None
  end.

(** hmat/common_impl.hpp (fillIndexRange): the indices start..stop-1. *)
Definition fillIndexRange (start stop : nat) : list nat := seq start (stop - start).

(** ClusterTreeNodeData: index range plus the geometric data (centroid, main
    direction, bounding box, diameter), cluster_tree_impl.hpp:20-26.  The geometric
    data type [G] is abstract. *)
Record cdata (G : Type) := CData { clo : nat; chi : nat; cgeo : G }.
Arguments CData {G}.

Section Cluster.
  Variable G : Type.
  (** cluster_tree_impl.hpp:36-97: geometric data of the dofs in the list
      (in the order in which the points are pushed). *)
  Variable geom : list nat -> G.
  (** cluster_tree_impl.hpp:181-200: std::sort of the index set by the inner product
      of the centre with the main direction; an arbitrary function, theorems only
      assume that it returns a permutation of its argument. *)
  Variable sortf : G -> list nat -> list nat.

  Definition nthZ (s : list nat) (i : Z) : option nat :=
    if (i <? 0)%Z then None else nth_error s (Z.to_nat i).

  (** cluster_tree_impl.hpp:202-228: two-pointer distribution of the sorted indices.
      Simplification: int counters are unbounded integers (n < 2^31 assumed). *)
  Fixpoint deal (fuel : nat) (s : list nat) (i1 i2 : Z) (first second : list nat)
    : option (list nat * list nat) :=
    match fuel with
    | O => None
    | S k =>
      if (i1 <=? i2)%Z then
        if (i1 =? i2)%Z then
          match nthZ s i1 with
          | Some x => deal k s (i1 + 1)%Z (i2 - 1)%Z (first ++ [x]) second
          | None => None
          end
        else
          match nthZ s i1, nthZ s i2 with
          | Some x, Some y => deal k s (i1 + 1)%Z (i2 - 1)%Z (first ++ [x]) (second ++ [y])
          | _, _ => None
          end
      else Some (first, second)
    end.

  (** cluster_tree_impl.hpp:258-266: the loop writing the permutation of a leaf. *)
  Fixpoint writeLeaf (count : nat) (idx : list nat) (hm : nat) (p : dofperm) : option dofperm :=
    match count with
    | O => Some p
    | S k =>
      match idx with
      | [] => None                       (* indexSet[originalIndexCount] out of bounds *)
      | x :: rest =>
        match addDofIndexPair p x hm with
        | Some p' => writeLeaf k rest (S hm) p'
        | None => None
        end
      end
    end.

  (** `indexSetSize <= minBlockSize` compares std::size_t with int: the int is
      converted modulo 2^64 (cluster_tree_impl.hpp:164). *)
  Definition tooSmall (size : nat) (minBlockSize : Z) : bool :=
    (Z.of_nat size <=? minBlockSize mod 2 ^ 64)%Z.

  (** cluster_tree_impl.hpp:144-270, the recursive lambda splittingFun applied to a
      node with range [a,b) and geometric data [g]. *)
  Fixpoint split (fuel : nat) (minBlockSize : Z) (a b : nat) (g : G)
           (indexSet : list nat) (p : dofperm) : option (stree (cdata G) * dofperm) :=
    match fuel with
    | O => None
    | S k =>
      let stop :=
        match writeLeaf (b - a) indexSet a p with
        | Some p' => Some (SNode (CData a b g) [], p')
        | None => None
        end in
      if tooSmall (length indexSet) minBlockSize then stop
      else
        let s := sortf g indexSet in
        match deal (S (length s)) s 0 (Z.of_nat (length s) - 1) [] [] with
        | None => None
        | Some (first, second) =>
          if ((length first =? 0) || (length second =? 0))%bool then stop
          else
            let pivot := length first in
            match split k minBlockSize a (a + pivot) (geom first) first p with
            | None => None
            | Some (t1, p1) =>
              match split k minBlockSize (a + pivot) b (geom second) second p1 with
              | None => None
              | Some (t2, p2) => Some (SNode (CData a b g) [t1; t2], p2)
              end
            end
        end
    end.

  (** cluster_tree_impl.hpp:28-34, 112-130, 269: the constructor. [None] for n = 0:
      the bounding box of an empty point set (maxCoeff of an empty matrix) and the
      division by centerPoints.size() are undefined. *)
  Definition clusterTree (n : nat) (minBlockSize : Z) : option (stree (cdata G) * dofperm) :=
    if n =? 0 then None
    else split (S n) minBlockSize 0 n (geom (fillIndexRange 0 n)) (fillIndexRange 0 n)
               (dofperm_init n).

  (** dof_permutation_impl.hpp:14-24. *)
  Definition mapOriginalDofToHMatDof (p : dofperm) (i : nat) : option nat := nth_error (o2h p) i.
  Definition mapHMatDofToOriginalDof (p : dofperm) (i : nat) : option nat := nth_error (h2o p) i.
End Cluster.

(** block_cluster_tree.hpp/BlockClusterTreeNodeData: the pair of cluster nodes and
    the admissibility flag. *)
Record bdata (G : Type) := BData {
  brow : stree (cdata G); bcol : stree (cdata G); badm : bool }.
Arguments BData {G}.

Section Block.
  Variable G : Type.
  Variable adm : cdata G -> cdata G -> bool.   (* AdmissibilityFunction, arbitrary *)
  Variable maxBlockSize : Z.

  (** size comparison size_t > int, block_cluster_tree_impl.hpp:153 *)
  Definition tooLarge (size : nat) : bool := (maxBlockSize mod 2 ^ 64 <? Z.of_nat size)%Z.
  Definition csize (d : cdata G) : nat := chi d - clo d.

  (** block_cluster_tree_impl.hpp:131-188: splittingFunction.  [flag] is the value of
      node->data().admissible; line 138 copies the node data, so the adjustment at
      lines 153-154 changes only the copy, and the stored flag remains [flag].
      Children get the flag computed from THIS node's clusters (lines 176-179). *)
  Fixpoint bsplit (r : stree (cdata G)) (c : stree (cdata G)) (flag : bool) {struct r}
    : stree (bdata G) :=
    match r with
    | SNode rd rch =>
      let local :=
        if (tooLarge (csize (sdata c)) || tooLarge (csize rd))%bool then false else flag in
      if local then SNode (BData r c flag) []
      else if (isLeaf r || isLeaf c)%bool then SNode (BData r c flag) []
      else
        SNode (BData r c flag)
          (flat_map (fun rc =>
             map (fun cc => bsplit rc cc (adm rd (sdata c))) (schildren c)) rch)
    end.

  (** block_cluster_tree_impl.hpp:190-195. *)
  Definition blockClusterTree (r c : stree (cdata G)) : stree (bdata G) :=
    bsplit r c (adm (sdata r) (sdata c)).
End Block.
