(** Model of the accuracy options and the quadrature descriptor selection.
    /repo/lib/fiber/accuracy_options.cpp, quadrature_options.hpp,
    default_quadrature_descriptor_selector_for_integral_operators.cpp,
    default_local_assembler_for_operators_on_surfaces_utilities.cpp.
    Distances are exact reals or infinity (rounding and NaN are not modelled); orders are
    integers (int overflow is not modelled). *)
From Coq Require Import Reals ZArith List Bool.
Import ListNotations.
From Verif Require Import Base ArrayModel BoxModel QuadModel.
Set Implicit Arguments.

(** double without NaN and -infinity *)
Inductive dist := Fin (x : R) | Inf.
Definition dle (a b : dist) : bool :=
  match a, b with
  | _, Inf => true
  | Inf, Fin _ => false
  | Fin x, Fin y => if Rle_dec x y then true else false
  end.
(** accuracy_options.cpp:38-42 *)
Definition deq (a b : dist) : bool := dle a b && dle b a.

(** quadrature_options.hpp:36-72 *)
Record qopt := QOpt { q_relative : bool; q_value : Z }.
Definition qdefault : qopt := QOpt true 0.
Definition quadratureOrder (o : qopt) (defaultOrder : Z) : Z :=
  if q_relative o then (defaultOrder + q_value o)%Z else q_value o.

Definition bracket := (dist * qopt)%type.
(** std::sort with the comparator LessOrEqual (accuracy_options.cpp:31-36).  The comparator is
    not a strict weak order.  libstdc++ sorts at most 16 entries by insertion, which with
    this comparator puts a new entry before the entries that are not below it; for more
    entries the behaviour is undefined as soon as two distances are equal. *)
Fixpoint sortInsert (v : bracket) (l : list bracket) : list bracket :=
  match l with
  | [] => [v]
  | y :: r => if dle (fst v) (fst y) then v :: l else y :: sortInsert v r
  end.
Definition sortAll (l : list bracket) : list bracket := fold_left (fun acc v => sortInsert v acc) l [].
Fixpoint distinct (l : list bracket) : bool :=
  match l with [] => true | v :: r => negb (existsb (fun y => deq (fst v) (fst y)) r) && distinct r end.
Definition stdSort (l : list bracket) : res (list bracket) :=
  if (length l <=? 16)%nat || distinct l then Ok (sortAll l) else Undefined.
(** std::unique: the entries kept are moved to the front, the others stay where they are;
    nobody erases the tail (the return value is ignored) *)
Fixpoint kept (last : bracket) (l : list bracket) : list bracket :=
  match l with
  | [] => []
  | y :: r => if deq (fst last) (fst y) then kept last r else y :: kept y r
  end.
Definition stdUnique (l : list bracket) : list bracket :=
  match l with
  | [] => []
  | v :: r => let k := v :: kept v r in k ++ skipn (length k) l
  end.

(** accuracy_options.cpp:46-51, the default: one bracket *)
Definition defaultRanges : list bracket := [(Inf, qdefault)].
(** 76-163, 196-279: setSingleRegular and setDoubleRegular.  The overloads for one to five orders
    and the one for vectors build the same list; the overload for one order does not sort,
    which for one entry makes no difference.  The size test is the one of the vector
    overload, in 64-bit arithmetic. *)
Definition setOrders (distances : list dist) (orders : list Z) (relative : bool) : res (list bracket) :=
  if negb (Z.of_nat (length distances) =? (Z.of_nat (length orders) - 1) mod 2 ^ 64)%Z then Throws
  else match rev orders with
  | [] => Undefined
  | lastOrder :: _ =>
    bind (stdSort (combine distances (map (fun o => QOpt relative o) orders) ++ [(Inf, QOpt relative lastOrder)]))
         (fun s => Ok (stdUnique s))
  end.
(** 281-299: the overloads taking a list of brackets; the last entry gets distance infinity *)
Definition setRanges (input : list bracket) : res (list bracket) :=
  bind (stdSort input) (fun s =>
  let u := stdUnique s in
  match rev u with
  | [] => Undefined                                   (* back() of an empty vector *)
  | (_, o) :: r => Ok (rev r ++ [(Inf, o)])
  end).
(** 66-74, 186-194 *)
Fixpoint lookup (m : list bracket) (d : dist) : res qopt :=
  match m with
  | [] => Throws
  | (x, o) :: r => if dle d x then Ok o else lookup r d
  end.
(** 62-64: singleRegular() *)
Definition lookupLast (m : list bracket) : res qopt := match rev m with (_, o) :: _ => Ok o | [] => Undefined end.

(** ---- descriptor selection ---- *)
Record accuracy := Accuracy { ao_regular : list bracket; ao_singular : qopt }.
(** one grid as the selector sees it: corner indices, vertex positions, shape function order of each element *)
Record sgeom := SGeom { sg_corners : list (list Z); sg_vertex : Z -> point; sg_order : nat -> Z }.

Local Open Scope R_scope.
Definition sqDist (p q : point) : R :=
  (px p - px q) * (px p - px q) + (py p - py q) * (py p - py q) + (pz p - pz q) * (pz p - pz q).
(** utilities.cpp:66-97 *)
Definition sizeSquared (g : sgeom) (e : nat) : R :=
  let v k := sg_vertex g (nth k (nth e (sg_corners g) []) (-1)%Z) in
  if (length (nth e (sg_corners g) []) =? 3)%nat
  then Rmax (Rmax (Rmax 0 (sqDist (v 1%nat) (v 0%nat))) (sqDist (v 2%nat) (v 1%nat))) (sqDist (v 0%nat) (v 2%nat))
  else Rmax (sqDist (v 2%nat) (v 0%nat)) (sqDist (v 3%nat) (v 1%nat)).
(** utilities.cpp:99-119 *)
Definition sumPoints (l : list point) : point :=
  fold_left (fun a p => (px a + px p, py a + py p, pz a + pz p)) l (0, 0, 0).
Definition centre (g : sgeom) (e : nat) : point :=
  let c := nth e (sg_corners g) [] in
  let s := sumPoints (map (sg_vertex g) c) in let n := INR (length c) in (px s / n, py s / n, pz s / n).
(** utilities.cpp:43-63 *)
Definition averageSize (g : sgeom) : R :=
  fold_left (fun a e => a + sqrt (sizeSquared g e)) (seq 0 (length (sg_corners g))) 0 / INR (length (sg_corners g)).

(** selector.cpp:63-80: [None] for the trial grid means that it is the test grid (same pointer) *)
Definition trialOf (g : sgeom) (g' : option sgeom) : sgeom := match g' with Some h => h | None => g end.
Definition commonSize (g : sgeom) (g' : option sgeom) : R :=
  match g' with None => averageSize g | Some h => (averageSize g + averageSize h) / 2 end.

Record desc := Desc { d_topology : topology; d_test : Z; d_trial : Z }.
(** 112-150.  A division by zero gives infinity or NaN: here Undefined *)
Definition normalised (g : sgeom) (g' : option sgeom) (e f : nat) (nominal : R) : res dist :=
  if Rlt_dec nominal 0
  then let s := Rmax (sizeSquared g e) (sizeSquared (trialOf g g') f) in
       if Req_EM_T s 0 then Undefined else Ok (Fin (sqrt (sqDist (centre (trialOf g g') f) (centre g e) / s)))
  else if Req_EM_T (commonSize g g') 0 then Undefined else Ok (Fin (nominal / commonSize g g')).
(** 82-110, 152-169 *)
Definition quadratureDescriptor (ao : accuracy) (g : sgeom) (g' : option sgeom) (e f : nat) (nominal : R) : res desc :=
  match nth_error (sg_corners g) e, nth_error (sg_corners (trialOf g g')) f with
  | Some ce, Some cf =>
    bind (match g' with
          | None => determineTopology ce cf
          | Some _ => Ok (Topo Disjoint (length ce) (length cf) (-1) (-1) (-1) (-1))
          end) (fun t =>
    match t_type t with
    | Disjoint =>
      bind (normalised g g' e f nominal) (fun d =>
      bind (lookup (ao_regular ao) d) (fun o =>
      Ok (Desc t (quadratureOrder o (sg_order g e)) (quadratureOrder o (sg_order (trialOf g g') f)))))
    | _ => Ok (Desc t (quadratureOrder (ao_singular ao) (sg_order g e + 5)) (quadratureOrder (ao_singular ao) (sg_order (trialOf g g') f + 5)))
    end)
  | _, _ => Undefined
  end.
