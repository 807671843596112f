From Coq Require Import ZArith.
From Verif Require Import Base ArrayModel.
Set Implicit Arguments.
Local Open Scope Z_scope.

(** i is an index tuple of an array with extents e *)
Definition inRange (e i : list Z) : Prop := Forall2 (fun n k => 0 <= k < n) e i.
Definition product (e : list Z) : Z := fold_right Z.mul 1 e.
(** column-major position: i0 + e0*(i1 + e1*(i2 + ...)) *)
Fixpoint columnMajor (e i : list Z) : Z :=
  match e, i with e0 :: e', i0 :: i' => i0 + e0 * columnMajor e' i' | _, _ => 0 end.
(** a two-, three- or four-dimensional array whose storage can be addressed *)
Definition properArray {T} (a : arr T) : Prop :=
  (2 <= length (a_ext a) <= 4)%nat /\ Forall (fun n => 0 <= n) (a_ext a) /\
  product (a_ext a) < W64 /\ Z.of_nat (length (a_data a)) = product (a_ext a).

(** ---- programs with arrays that respect the interface ---- *)
Definition dimOk (d : nat) : Prop := d = 2%nat \/ d = 3%nat \/ d = 4%nat.
Definition extOk (d : nat) (e : list Z) : Prop := length e = d /\ Forall (fun n => 0 <= n < W64) e /\ product e < W64.
Definition clientOk (m : mem) (o : aop) : Prop :=
  match o with
  | NewDefault d => dimOk d
  | NewSized d e => dimOk d /\ extOk d e
  | NewOn d e p s => dimOk d /\ extOk d e /\ exists b, nth_error (heap m) p = Some b /\ b_client b = true /\ product e <= b_size b
  | NewCopy j | Destroy j => exists a, nth_error (objs m) j = Some (Some a)
  | Assign i j => exists a b, nth_error (objs m) i = Some (Some a) /\ nth_error (objs m) j = Some (Some b) /\ h_dim a = h_dim b
  | SetSize i e => exists a, nth_error (objs m) i = Some (Some a) /\ extOk (h_dim a) e
  | ClientBlock n => 0 <= n
  end.
Fixpoint clientProgram (m : mem) (l : list aop) : Prop :=
  match l with
  | [] => True
  | o :: r => clientOk m o /\ match astep m o with Ok m' => clientProgram m' r | Throws => clientProgram m r | Undefined => True end
  end.
