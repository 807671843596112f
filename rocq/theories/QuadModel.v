(** Singular quadrature on pairs of elements:
    /repo/lib/fiber/element_pair_topology.hpp, /repo/lib/fiber/quadrature/galerkinduffy.hpp,
    /repo/lib/fiber/numerical_quadrature.cpp.  Exact real arithmetic; release build. *)
From Coq Require Import Reals ZArith List.
Import ListNotations.
From Verif Require Import Base ArrayModel.
Set Implicit Arguments.

(** ---- element_pair_topology.hpp:33-64 ---- *)
Inductive ttype := Disjoint | SharedVertex | SharedEdge | Coincident.
Record topology := Topo { t_type : ttype; testCount : nat; trialCount : nat;
  testSV0 : Z; testSV1 : Z; trialSV0 : Z; trialSV1 : Z }.
(** 119-128: the inner loop, left at the first hit *)
Fixpoint firstMatch (test : list Z) (c : Z) (testV : nat) : option nat :=
  match test with
  | [] => None
  | v :: r => if (v =? c)%Z then Some testV else firstMatch r c (S testV)
  end.
(** the two arrays of hits, in the order of the outer loop *)
Fixpoint hitsFrom (test trial : list Z) (trialV : nat) : list (nat * nat) :=
  match trial with
  | [] => []
  | c :: r => match firstMatch test c 0 with
              | Some testV => (testV, trialV) :: hitsFrom test r (S trialV)
              | None => hitsFrom test r (S trialV)
              end
  end.
Definition hits (test trial : list Z) : list (nat * nat) := hitsFrom test trial 0.
(** 99-159 *)
Definition determineTopology (test trial : list Z) : res topology :=
  let h := hits test trial in
  let nt := length test in let ns := length trial in
  if (4 <? length h)%nat then Undefined                 (* testSharedVertices[MAX_VERTEX_COUNT] overrun *)
  else match h with
  | [] => Ok (Topo Disjoint nt ns (-1) (-1) (-1) (-1))
  | [(a, b)] => Ok (Topo SharedVertex nt ns (Z.of_nat a) (-1) (Z.of_nat b) (-1))
  | [(a, b); (c, d)] => Ok (Topo SharedEdge nt ns (Z.of_nat a) (Z.of_nat c) (Z.of_nat b) (Z.of_nat d))
  | _ => if (length h =? nt)%nat && (length h =? ns)%nat then Ok (Topo Coincident nt ns (-1) (-1) (-1) (-1)) else Throws
  end.

(** ---- galerkinduffy.hpp ---- *)
Local Open Scope R_scope.
Inductive shape := Triangle | Quadrangle.
Inductive sing := VA | EA | CO.
Definition pt := (R * R)%type.
(** one region: reference_points_x[k], reference_points_y[k], weights[k] *)
Record region := Region { rx : pt; ry : pt; rw : R }.
(** a point of the parameter cube *)
Record param := Param { xsi : R; eta1 : R; eta2 : R; eta3 : R }.
Definition transform (s : shape) (g : sing) (p : param) : list region :=
  let '(Param xsi eta1 eta2 eta3) := p in
  match s, g with
  | Triangle, CO =>                                      (* 147-208 *)
    let eta123 := eta1 * eta2 * eta3 in
    let eta12 := eta1 * eta2 in
    let w := xsi * xsi * xsi * eta1 * eta1 * eta2 in
    [Region (xsi, xsi * (1 - eta1 + eta12)) (xsi * (1 - eta123), xsi * (1 - eta1)) w;
     Region (xsi * (1 - eta123), xsi * (1 - eta1)) (xsi, xsi * (1 - eta1 + eta12)) w;
     Region (xsi, xsi * (eta1 - eta12 + eta123)) (xsi * (1 - eta12), xsi * (eta1 - eta12)) w;
     Region (xsi * (1 - eta12), xsi * (eta1 - eta12)) (xsi, xsi * (eta1 - eta12 + eta123)) w;
     Region (xsi * (1 - eta123), xsi * (eta1 - eta123)) (xsi, xsi * (eta1 - eta12)) w;
     Region (xsi, xsi * (eta1 - eta12)) (xsi * (1 - eta123), xsi * (eta1 - eta123)) w]
  | Triangle, EA =>                                      (* 211-263 *)
    let eta12 := eta1 * eta2 in
    let eta123 := eta1 * eta2 * eta3 in
    let w0 := xsi * xsi * xsi * eta1 * eta1 in
    let w1 := w0 * eta2 in
    [Region (xsi, xsi * eta1 * eta3) (xsi * (1 - eta12), xsi * (eta1 - eta12)) w0;
     Region (xsi, xsi * eta1) (xsi * (1 - eta123), xsi * (eta12 - eta123)) w1;
     Region (xsi * (1 - eta12), xsi * (eta1 - eta12)) (xsi, xsi * eta123) w1;
     Region (xsi * (1 - eta123), xsi * (eta12 - eta123)) (xsi, xsi * eta1) w1;
     Region (xsi * (1 - eta123), xsi * (eta1 - eta123)) (xsi, xsi * eta12) w1]
  | Triangle, VA =>                                      (* 266-294 *)
    let w := xsi * xsi * xsi * eta2 in
    [Region (xsi, xsi * eta1) (xsi * eta2, xsi * eta2 * eta3) w;
     Region (xsi * eta2, xsi * eta2 * eta3) (xsi, xsi * eta1) w]
  | Quadrangle, CO =>                                    (* 327-400 *)
    let aux1 := (1 - xsi) * eta3 in
    let aux2 := (1 - xsi * eta1) * eta2 in
    let aux3 := xsi + aux1 in
    let aux4 := xsi * eta1 + aux2 in
    let w := xsi * (1 - xsi) * (1 - xsi * eta1) in
    [Region (aux1, aux2) (aux3, aux4) w; Region (aux2, aux1) (aux4, aux3) w;
     Region (aux1, aux4) (aux3, aux2) w; Region (aux2, aux3) (aux4, aux1) w;
     Region (aux3, aux2) (aux1, aux4) w; Region (aux4, aux1) (aux2, aux3) w;
     Region (aux3, aux4) (aux1, aux2) w; Region (aux4, aux3) (aux2, aux1) w]
  | Quadrangle, EA =>                                    (* 403-459 *)
    let w0 := xsi * xsi * (1 - xsi) in
    let w2 := xsi * xsi * (1 - xsi * eta1) in
    [Region ((1 - xsi) * eta3 + xsi, xsi * eta2) ((1 - xsi) * eta3, xsi * eta1) w0;
     Region ((1 - xsi) * eta3, xsi * eta2) (xsi + (1 - xsi) * eta3, xsi * eta1) w0;
     Region ((1 - xsi * eta1) * eta3 + xsi * eta1, xsi * eta2) ((1 - xsi * eta1) * eta3, xsi) w2;
     Region ((1 - xsi * eta1) * eta3 + xsi * eta1, xsi) ((1 - xsi * eta1) * eta3, xsi * eta2) w2;
     Region ((1 - xsi * eta1) * eta3, xsi * eta2) ((1 - xsi * eta1) * eta3 + xsi * eta1, xsi) w2;
     Region ((1 - xsi * eta1) * eta3, xsi) ((1 - xsi * eta1) * eta3 + xsi * eta1, xsi * eta2) w2]
  | Quadrangle, VA =>                                    (* 462-506 *)
    let aux1 := xsi * eta1 in let aux2 := xsi * eta2 in let aux3 := xsi * eta3 in
    let w := xsi * xsi * xsi in
    [Region (xsi, aux1) (aux2, aux3) w; Region (aux1, xsi) (aux2, aux3) w;
     Region (aux1, aux2) (xsi, aux3) w; Region (aux1, aux2) (aux3, xsi) w]
  end.
(** shapetraits.H:77-79, 99-101 *)
Definition numRegions (s : shape) (g : sing) : nat :=
  match s, g with
  | Triangle, VA => 2 | Triangle, EA => 5 | Triangle, CO => 6
  | Quadrangle, VA => 4 | Quadrangle, EA => 6 | Quadrangle, CO => 8
  end.

(** ---- numerical_quadrature.cpp ---- *)
(** 203-208, 214-219: Hyena's reference triangle (0,0)-(1,0)-(1,1) to Dune's *)
Definition toDune (s : shape) (q : pt) : pt := match s with Triangle => (fst q - snd q, snd q) | Quadrangle => q end.
(** 68-90 *)
Definition remapVertexPoint (sharedVertex : Z) (q : pt) : res pt :=
  if (sharedVertex =? 0)%Z then Ok q
  else if (sharedVertex =? 1)%Z then Ok (- fst q - snd q + 1, snd q)
  else if (sharedVertex =? 2)%Z then Ok (fst q, - fst q - snd q + 1)
  else Throws.
(** 112-117: column k of refVertices; a column that does not exist: undefined *)
Definition refVertex (k : Z) : res pt :=
  if (k =? 0)%Z then Ok (0, 0) else if (k =? 1)%Z then Ok (1, 0) else if (k =? 2)%Z then Ok (0, 1) else Undefined.
(** 99-107 *)
Definition nonsharedVertex (a b : Z) : Z := (3 - a - b)%Z.
(** 110-141 *)
Definition remapEdgePoint (sv0 sv1 : Z) (q : pt) : res pt :=
  bind (refVertex sv0) (fun v0 => bind (refVertex sv1) (fun v1 => bind (refVertex (nonsharedVertex sv0 sv1)) (fun v2 =>
    let a00 := fst v1 - fst v0 in let a10 := snd v1 - snd v0 in
    let a01 := fst v2 - fst v0 in let a11 := snd v2 - snd v0 in
    Ok (a00 * fst q + a01 * snd q + fst v0, a10 * fst q + a11 * snd q + snd v0)))).
Fixpoint mapRes {A B} (f : A -> res B) (l : list A) : res (list B) :=
  match l with
  | [] => Ok []
  | a :: r => bind (f a) (fun b => bind (mapRes f r) (fun br => Ok (b :: br)))
  end.
(** 150-175: for quadrilaterals: not implemented, whatever the points *)
Definition remapVertex (s : shape) (v : Z) (points : list pt) : res (list pt) :=
  match s with
  | Quadrangle => Throws
  | Triangle => if (v =? 0)%Z || (v =? 1)%Z || (v =? 2)%Z then mapRes (remapVertexPoint v) points else Throws
  end.
Definition remapEdge (s : shape) (v0 v1 : Z) (points : list pt) : res (list pt) :=
  match s with Quadrangle => Throws | Triangle => mapRes (remapEdgePoint v0 v1) points end.
(** a quadrature rule on the unit square: points and weights *)
Definition rule := list (pt * R).
Definition paramOf (a b : pt) : param := Param (fst a) (snd a) (fst b) (snd b).
(** the triple loop over region, testIndex, trialIndex (190-233); the arrays start uninitialised (None) *)
Definition loopIndices (regions pc : nat) : list (nat * (nat * nat)) :=
  flat_map (fun r => flat_map (fun i => map (fun j => (r, (i, j))) (seq 0 pc)) (seq 0 pc)) (seq 0 regions).
Definition column (pc : nat) (k : nat * (nat * nat)) : nat :=
  (fst (snd k) + snd (snd k) * pc + fst k * pc * pc)%nat.
Fixpoint fill {A} (pc : nat) (f : nat * (nat * nat) -> option A) (ks : list (nat * (nat * nat))) (a : list (option A)) : res (list (option A)) :=
  match ks with
  | [] => Ok a
  | k :: r => match f k with
              | None => Undefined
              | Some v => match upd a (column pc k) (Some v) with Some a' => fill pc f r a' | None => Undefined end
              end
  end.
(** getPointX/getPointY/getWeight(testIndex, trialIndex, region) *)
Definition regionAt (s : shape) (g : sing) (q : rule) (k : nat * (nat * nat)) : option region :=
  let '(r, (i, j)) := k in
  match nth_error q i, nth_error q j with
  | Some a, Some b => nth_error (transform s g (paramOf (fst a) (fst b))) r
  | _, _ => None
  end.
Definition weightAt (s : shape) (g : sing) (q : rule) (k : nat * (nat * nat)) : option R :=
  let '(r, (i, j)) := k in
  match nth_error q i, nth_error q j, regionAt s g q k with
  | Some a, Some b, Some z => Some (rw z * snd a * snd b)
  | _, _, _ => None
  end.
Fixpoint written {A} (l : list (option A)) : res (list A) :=
  match l with
  | [] => Ok []
  | Some a :: r => bind (written r) (fun x => Ok (a :: x))
  | None :: r => Undefined                                (* read of an uninitialised element *)
  end.
(** 178-245 for a rule of pc points *)
Definition fillSingular (s : shape) (g : sing) (t : topology) (q : rule) : res (list pt * list pt * list R) :=
  let pc := length q in
  let n := (numRegions s g * pc * pc)%nat in
  let ks := loopIndices (numRegions s g) pc in
  let dune f k := option_map (fun z => toDune s (f z)) (regionAt s g q k) in
  bind (bind (fill pc (dune rx) ks (repeat None n)) written) (fun testPoints =>
  bind (bind (fill pc (dune ry) ks (repeat None n)) written) (fun trialPoints =>
  bind (bind (fill pc (weightAt s g q) ks (repeat None n)) written) (fun weights =>
  match g with
  | VA => bind (remapVertex s (testSV0 t) testPoints) (fun a => bind (remapVertex s (trialSV0 t) trialPoints) (fun b => Ok (a, b, weights)))
  | EA => bind (remapEdge s (testSV0 t) (testSV1 t) testPoints) (fun a => bind (remapEdge s (trialSV0 t) (trialSV1 t) trialPoints) (fun b => Ok (a, b, weights)))
  | CO => Ok (testPoints, trialPoints, weights)
  end))).
(** 266-304 *)
Definition fillDoubleSingular (t : topology) (q : rule) : res (list pt * list pt * list R) :=
  let go s := match t_type t with
    | SharedVertex => fillSingular s VA t q
    | SharedEdge => fillSingular s EA t q
    | Coincident => fillSingular s CO t q
    | Disjoint => Throws
    end in
  if (testCount t =? 3)%nat && (trialCount t =? 3)%nat then go Triangle
  else if (testCount t =? 4)%nat && (trialCount t =? 4)%nat then go Quadrangle
  else Throws.
(** 182-186: number of points in one direction for the requested orders (non-negative) *)
Definition pointsIn1d (testOrder trialOrder : Z) : Z := ((Z.max testOrder trialOrder + 1 + 1) / 2)%Z.
