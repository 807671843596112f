(** Model of /repo/lib/fiber/_2d_array_imp.hpp, _3d_array_imp.hpp, _4d_array_imp.hpp:
    element access, slices, operator+=, operator*=, and the management of the storage. *)
From Coq Require Import ZArith.
From Verif Require Import Base.
Set Implicit Arguments.
Local Open Scope Z_scope.

(** outcome of an operation: value, C++ exception, undefined behaviour *)
Inductive res (A : Type) := Ok (a : A) | Throws | Undefined.
Arguments Ok {A}. Arguments Throws {A}. Arguments Undefined {A}.
Definition bind {A B} (x : res A) (f : A -> res B) : res B :=
  match x with Ok a => f a | Throws => Throws | Undefined => Undefined end.

(** size_t arithmetic *)
Definition W64 : Z := 2 ^ 64.
Definition wadd (a b : Z) : Z := (a + b) mod W64.
Definition wmul (a b : Z) : Z := (a * b) mod W64.

(** ---- element access ---- *)
(** a_ext: m_extents; a_data: m_storage[0 .. product of the extents) *)
Record arr (T : Type) := Arr { a_ext : list Z; a_data : list T }.
Arguments Arr {T}. Arguments a_ext {T}. Arguments a_data {T}.
(** _2d:83-97, _3d:96-115, _4d:121-143: the index of m_storage *)
Definition offset (e i : list Z) : option Z :=
  match e, i with
  | [e0; e1], [i0; i1] => Some (wadd i0 (wmul e0 i1))
  | [e0; e1; e2], [i0; i1; i2] => Some (wadd (wadd i0 (wmul e0 i1)) (wmul (wmul e0 e1) i2))
  | [e0; e1; e2; e3], [i0; i1; i2; i3] =>
      Some (wadd (wadd (wadd i0 (wmul e0 i1)) (wmul (wmul e0 e1) i2)) (wmul (wmul (wmul e0 e1) e2) i3))
  | _, _ => None
  end.
(** check_indices (only with FIBER_CHECK_ARRAY_BOUNDS) *)
Fixpoint indicesOk (e i : list Z) : bool :=
  match e, i with
  | [], [] => true
  | e0 :: e', i0 :: i' => negb (e0 <=? i0) && indicesOk e' i'
  | _, _ => false
  end.
(** operator(): the position of the element; [checked]: FIBER_CHECK_ARRAY_BOUNDS *)
Definition position {T} (checked : bool) (a : arr T) (i : list Z) : res nat :=
  if checked && negb (indicesOk (a_ext a) i) then Throws else
  match offset (a_ext a) i with
  | Some o => if Z.of_nat (length (a_data a)) <=? o then Undefined else Ok (Z.to_nat o)
  | None => Undefined
  end.
Definition read {T} checked (a : arr T) (i : list Z) : res T :=
  bind (position checked a i) (fun o => match nth_error (a_data a) o with Some v => Ok v | None => Undefined end).
Definition write {T} checked (a : arr T) (i : list Z) (v : T) : res (arr T) :=
  bind (position checked a i) (fun o => match upd (a_data a) o v with Some d => Ok (Arr (a_ext a) d) | None => Undefined end).
(** slices keep the trailing indices fixed (_1dSliceOf2dArray ... _1dSliceOf4dArray) *)
Definition sliceRead {T} checked (a : arr T) (fixed i : list Z) : res T := read checked a (i ++ fixed).
Definition sliceWrite {T} checked (a : arr T) (fixed i : list Z) (v : T) : res (arr T) := write checked a (i ++ fixed) v.

Definition zseq (n : Z) : list Z := map Z.of_nat (seq 0 (Z.to_nat n)).
(** the index tuples in loop order: last index outermost *)
Fixpoint tuples (e : list Z) : list (list Z) :=
  match e with
  | [] => [[]]
  | e0 :: e' => flat_map (fun t => map (fun k => k :: t) (zseq e0)) (tuples e')
  end.
(** operator+= (_2d:120-129, _3d:124-136, _4d:91-105): the comparison of the extents
    constructs an exception object but does not throw it *)
Fixpoint addLoop {K : star_ring} checked (a b : arr K) (is : list (list Z)) : res (arr K) :=
  match is with
  | [] => Ok a
  | i :: r => bind (read checked b i) (fun y => bind (read checked a i) (fun x =>
              bind (write checked a i (add x y)) (fun a' => addLoop checked a' b r)))
  end.
Definition plusEq {K : star_ring} checked (a b : arr K) : res (arr K) := addLoop checked a b (tuples (a_ext a)).
(** operator*= *)
Fixpoint scaleLoop {K : star_ring} checked (a : arr K) (c : K) (is : list (list Z)) : res (arr K) :=
  match is with
  | [] => Ok a
  | i :: r => bind (read checked a i) (fun x => bind (write checked a i (mul x c)) (fun a' => scaleLoop checked a' c r))
  end.
Definition timesEq {K : star_ring} checked (a : arr K) (c : K) : res (arr K) := scaleLoop checked a c (tuples (a_ext a)).

(** ---- storage ---- *)
(** memory blocks: number of elements, whether it belongs to a client (passed as `data`), live *)
Record block := Block { b_size : Z; b_client : bool; b_live : bool }.
(** an array object; h_ptr None: m_storage = 0; h_dim: 2, 3 or 4 *)
Record hdr := Hdr { h_dim : nat; h_ext : list Z; h_ptr : option nat; h_owns : bool; h_strict : bool }.
Definition total (e : list Z) : Z := fold_left wmul e 1.
(** memory and array objects (None: destroyed) *)
Record mem := Mem { heap : list block; objs : list (option hdr) }.
Definition alloc (h : list block) (n : Z) : list block * nat := (h ++ [Block n false true], length h).
(** delete[] *)
Definition delete (h : list block) (p : nat) : res (list block) :=
  match nth_error h p with
  | Some b => if b_client b || negb (b_live b) then Undefined
              else match upd h p (Block (b_size b) false false) with Some h' => Ok h' | None => Undefined end
  | None => Undefined
  end.
(** free_memory: if (m_owns && m_storage) delete[] m_storage *)
Definition free_memory (h : list block) (a : hdr) : res (list block) :=
  match h_owns a, h_ptr a with true, Some p => delete h p | _, _ => Ok h end.
Definition init_memory (h : list block) (d : nat) (e : list Z) : list block * hdr :=
  let '(h', p) := alloc h (total e) in (h', Hdr d e (Some p) true false).
Definition emptyHdr (d : nat) (e : list Z) : hdr := Hdr d e None false false.
(** set_size: _2d:107-118, _3d:148-171, _4d:153-177 *)
Definition set_size (h : list block) (a : hdr) (e : list Z) : res (list block * hdr) :=
  if total e =? total (h_ext a) then Ok (h, Hdr (h_dim a) e (h_ptr a) (h_owns a) (h_strict a))
  else match h_dim a with
  | 3%nat =>
    if h_strict a then Throws
    else bind (free_memory h a) (fun h1 =>
      Ok (if total e =? 0 then (h1, emptyHdr 3 (map (fun _ => 0) e)) else init_memory h1 3 e))
  | d => bind (free_memory h a) (fun h1 => Ok (init_memory h1 d e))
  end.
(** std::copy(src.begin(), src.end(), dst): reads and writes n elements *)
Definition usable (h : list block) (a : hdr) (n : Z) : bool :=
  (n =? 0) || match h_ptr a with
              | Some p => match nth_error h p with Some b => b_live b && (n <=? b_size b) | None => false end
              | None => false end.
Definition copy (h : list block) (src dst : hdr) : res unit :=
  let n := total (h_ext src) in if usable h src n && usable h dst n then Ok tt else Undefined.

Inductive aop :=
| NewDefault (d : nat)                               (* _2dArray() ... *)
| NewSized (d : nat) (e : list Z)
| NewOn (d : nat) (e : list Z) (p : nat) (strict : bool)   (* on a client's block *)
| NewCopy (j : nat)
| Assign (i j : nat)
| SetSize (i : nat) (e : list Z)
| Destroy (i : nat)
| ClientBlock (n : Z).                               (* the client allocates memory of its own *)
Definition getObj (m : mem) (i : nat) : option hdr := match nth_error (objs m) i with Some (Some a) => Some a | _ => None end.
Definition putObj (m : mem) (h : list block) (i : nat) (a : option hdr) : res mem :=
  match upd (objs m) i a with Some o => Ok (Mem h o) | None => Undefined end.
(** an operation on an object that does not exist is not a program: Undefined *)
Definition astep (m : mem) (o : aop) : res mem :=
  match o with
  | NewDefault d => Ok (Mem (heap m) (objs m ++ [Some (emptyHdr d (repeat 0 d))]))
  | NewSized d e => let '(h, a) := init_memory (heap m) d e in Ok (Mem h (objs m ++ [Some a]))
  | NewOn d e p s => Ok (Mem (heap m) (objs m ++ [Some (Hdr d e (Some p) false s)]))
  | NewCopy j =>
    match getObj m j with
    | None => Undefined
    | Some b =>
      if (h_dim b =? 3)%nat && (total (h_ext b) =? 0)
      then Ok (Mem (heap m) (objs m ++ [Some (emptyHdr 3 (repeat 0 3))]))
      else let '(h, a) := init_memory (heap m) (h_dim b) (h_ext b) in
           bind (copy h b a) (fun _ => Ok (Mem h (objs m ++ [Some a])))
    end
  | Assign i j =>
    match getObj m i, getObj m j with
    | Some a, Some b =>
      if (i =? j)%nat then Ok m else
      if negb (h_dim a =? h_dim b)%nat then Undefined else
      bind (set_size (heap m) a (h_ext b)) (fun ha => let '(h, a') := ha in
      bind (copy h b a') (fun _ => putObj m h i (Some a')))
    | _, _ => Undefined
    end
  | SetSize i e =>
    match getObj m i with
    | Some a => if negb (length e =? h_dim a)%nat then Undefined else
                bind (set_size (heap m) a e) (fun ha => let '(h, a') := ha in putObj m h i (Some a'))
    | None => Undefined
    end
  | Destroy i =>
    match getObj m i with
    | Some a => bind (free_memory (heap m) a) (fun h => putObj m h i None)
    | None => Undefined
    end
  | ClientBlock n => Ok (Mem (heap m ++ [Block n true true]) (objs m))
  end.
(** a program: operations one after the other; an operation that throws has no effect *)
Fixpoint arun (m : mem) (l : list aop) : res mem :=
  match l with
  | [] => Ok m
  | o :: r => match astep m o with Ok m' => arun m' r | Throws => arun m r | Undefined => Undefined end
  end.
