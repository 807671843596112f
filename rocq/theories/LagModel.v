(** Evaluation of functions in the scalar polynomial spaces.
    /repo/lib/fiber/{lagrange,linear}_scalar_shapeset.hpp (which forward to Dune::Pk2DLocalBasis and
    Dune::P1LocalBasis, modelled from the library's documentation),
    /repo/lib/fiber/scalar_function_value_functor.hpp,
    /repo/cython/bempp/core/space/local_evaluator.hpp,
    /repo/python/bempp/api/assembly/grid_function.py 219-264.  Numbers are reals. *)
From Coq Require Import Reals.
From Verif Require Import Base ComplexR SegModel AsmModel SpaceModel PolyModel PolySpec VecModel.
Set Implicit Arguments.
Unset Strict Implicit.
Local Open Scope R_scope.

(** Dune::Pk2DLocalBasis<k>: pos[i] = i / k *)
Definition pkPos (p : nat) (i : nat) : R := INR i / INR p.
(** product over a list of indices *)
Definition loopProduct (l : list nat) (f : nat -> R) : R := fold_left (fun acc a => acc * f a) l 1.
(** evaluateFunction: function number n belongs to the pair (i, j), i running fastest; three loops
    of factors *)
Definition pkFunction (p : nat) (n : nat * nat) (q : R * R) : R :=
  let (i, j) := n in let (x, y) := q in
  loopProduct (seq 0 i) (fun a => (x - pkPos p a) / (pkPos p i - pkPos p a)) *
  loopProduct (seq 0 j) (fun b => (y - pkPos p b) / (pkPos p j - pkPos p b)) *
  loopProduct (seq (i + j + 1) (p - i - j)) (fun c => (pkPos p c - x - y) / (pkPos p c - pkPos p i - pkPos p j)).
(** Dune::P1LocalBasis<2> *)
Definition p1Function (k : nat) (q : R * R) : R :=
  match k with O => 1 - fst q - snd q | S O => fst q | _ => snd q end.

(** local_evaluator.hpp 51-56 with scalar_function_value_functor.hpp 45-56 (the value itself) *)
Definition sumScalar (value : nat -> R) (cs : list R) (n : nat) : option R :=
  fold_left (fun acc f => v <- acc ;; c <- nth_error cs f ;; Some (v + value f * c)) (seq 0 n) (Some 0).
(** GridFunction.evaluate for order p *)
Definition evaluatePk (p : nat) (m : dofmap Rsr) (u : list R) (e : selt) (q : R * R) : option R :=
  cs <- localCoefficients m u (s_index e) ;;
  sumScalar (fun f => pkFunction p (nth f (nodes p) (0%nat, 0%nat)) q) cs (length (nodes p)).
(** ... for the linear spaces *)
Definition evaluateP1 (m : dofmap Rsr) (u : list R) (e : selt) (q : R * R) : option R :=
  cs <- localCoefficients m u (s_index e) ;;
  sumScalar (fun f => p1Function f q) cs 3.

(** grid_function.py 248-264 evaluate_on_vertices: three assignments per element *)
Definition cornerPoint (i : nat) : R * R := match i with O => (0, 0) | S O => (1, 0) | _ => (0, 1) end.
Definition verticesOfElement (eval : selt -> R * R -> option R) (values : list R) (e : selt) : option (list R) :=
  ofold (fun vals i => x <- eval e (cornerPoint i) ;; v <- nth_error (s_verts e) i ;; zset vals v x) (seq 0 3) values.
Definition evaluateOnVertices (eval : selt -> R * R -> option R) (g : sgrid) : option (list R) :=
  ofold (verticesOfElement eval) (g_elts g) (repeat 0 (Z.to_nat (g_n2 g))).
