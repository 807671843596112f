(** Kernel functors: /repo/lib/fiber/*_kernel_functor.hpp, with the wave numbers chosen in
    /repo/lib/operators and /repo/python/bempp/api/operators.
    Numbers are reals and pairs of reals.  KernelType is complex; where the code uses real types the
    imaginary parts are 0.  Reading a field of the geometrical data that was not computed is an
    access to an empty array: None. *)
From Coq Require Import Reals List.
Import ListNotations.
From Verif Require Import Base ComplexR VecModel.
Set Implicit Arguments.
Unset Strict Implicit.
Local Open Scope R_scope.

(** ---- std::complex ---- *)
Definition cre (r : R) : cpx := (r, 0).
Definition cexp (z : cpx) : cpx := (exp (fst z) * cos (snd z), exp (fst z) * sin (snd z)).
Definition cscale (r : R) (z : cpx) : cpx := (r * fst z, r * snd z).
Definition cinv (z : cpx) : cpx := (fst z / cabs2 z, - snd z / cabs2 z).
Definition cdiv (a b : cpx) : cpx := c_mul a (cinv b).
Definition cI : cpx := (0, 1).

(** ---- geometrical data at one point (geometrical_data.hpp): globals and normals ---- *)
Record gslice := GSlice { gs_global : option vec; gs_normal : option vec }.
(** the fields computed by getData (concrete_geometry.hpp 385-406) for the given dependencies *)
Record deps := Deps { d_globals : bool; d_normals : bool }.
Definition slice (d : deps) (x n : vec) : gslice :=
  GSlice (if d_globals d then Some x else None) (if d_normals d then Some n else None).
Definition GLOBALS := Deps true false.
Definition GLOBALS_NORMALS := Deps true true.

Local Notation "x <- e ;; k" := (match e with Some x => k | None => None end) (at level 60, e at next level, right associativity).
Definition comp (v : vec) (i : nat) : R := match i with O => vx v | S O => vy v | _ => vz v end.
(** a loop "sum += term(coordIndex)" *)
Definition loop3 (term : nat -> R) : R := 0 + term 0%nat + term 1%nat + term 2%nat.

(** a kernel functor: dependencies on the test and trial side; evaluate: result[kernel](row, 0) *)
Record kernel := Kernel { k_test : deps; k_trial : deps; k_eval : gslice -> gslice -> option (list (list cpx)) }.

(** laplace_3d_single_layer_potential_kernel_functor.hpp 53-75 *)
Definition laplaceSlp : kernel := Kernel GLOBALS GLOBALS (fun test trial =>
  x <- gs_global test ;; y <- gs_global trial ;;
  let sum := loop3 (fun i => (comp x i - comp y i) * (comp x i - comp y i)) in
  Some [[cre (1 / (4 * PI) / sqrt sum)]]).
(** laplace_3d_double_layer_potential_kernel_functor.hpp 52-78 *)
Definition laplaceDlp : kernel := Kernel GLOBALS GLOBALS_NORMALS (fun test trial =>
  x <- gs_global test ;; y <- gs_global trial ;; n <- gs_normal trial ;;
  let distanceSq := loop3 (fun i => (comp y i - comp x i) * (comp y i - comp x i)) in
  let numeratorSum := loop3 (fun i => (comp y i - comp x i) * comp n i) in
  let distance := sqrt distanceSq in
  Some [[cre (- numeratorSum / (4 * PI * distance * distanceSq))]]).
(** laplace_3d_adjoint_double_layer_potential_kernel_functor.hpp 53-79 *)
Definition laplaceAdlp : kernel := Kernel GLOBALS_NORMALS GLOBALS (fun test trial =>
  x <- gs_global test ;; y <- gs_global trial ;; n <- gs_normal test ;;
  let distanceSq := loop3 (fun i => (comp x i - comp y i) * (comp x i - comp y i)) in
  let numeratorSum := loop3 (fun i => (comp x i - comp y i) * comp n i) in
  let distance := sqrt distanceSq in
  Some [[cre (- numeratorSum / (4 * PI * distanceSq * distance))]]).
(** laplace_3d_hypersingular_off_diagonal_kernel_functor.hpp 54-90 *)
Definition laplaceHyp : kernel := Kernel GLOBALS_NORMALS GLOBALS_NORMALS (fun test trial =>
  x <- gs_global test ;; y <- gs_global trial ;; nTest <- gs_normal test ;; nTrial <- gs_normal trial ;;
  let distanceSq := loop3 (fun i => (comp y i - comp x i) * (comp y i - comp x i)) in
  let nTest_diff := loop3 (fun i => (comp y i - comp x i) * comp nTest i) in
  let nTrial_diff := loop3 (fun i => (comp y i - comp x i) * comp nTrial i) in
  let nTest_nTrial := loop3 (fun i => comp nTest i * comp nTrial i) in
  let distance := sqrt distanceSq in
  let commonFactor := -1 / (4 * PI) / (distance * distanceSq * distanceSq) in
  Some [[cre (commonFactor * (nTest_nTrial * distanceSq - 3 * nTest_diff * nTrial_diff))]]).
(** laplace_3d_single_layer_gradient_potential_kernel_functor.hpp 53-81 *)
Definition laplaceSlpGrad : kernel := Kernel GLOBALS GLOBALS (fun test trial =>
  x <- gs_global test ;; y <- gs_global trial ;;
  let sum := loop3 (fun i => (comp x i - comp y i) * (comp x i - comp y i)) in
  let factor := - (1 / (4 * PI)) / (sqrt sum * sqrt sum * sqrt sum) in
  Some [map (fun i => cre ((comp x i - comp y i) * factor)) [0; 1; 2]%nat]).
(** laplace_3d_double_layer_gradient_potential_kernel_functor.hpp 53-101 (compiled with NDEBUG: the
    assertion in 66 demands three kernels) *)
Definition laplaceDlpGrad : kernel := Kernel GLOBALS GLOBALS_NORMALS (fun test trial =>
  x <- gs_global test ;; y <- gs_global trial ;; n <- gs_normal trial ;;
  let sum := loop3 (fun i => (comp x i - comp y i) * (comp x i - comp y i)) in
  let factor := loop3 (fun i => comp n i * (comp x i - comp y i) * 3 / sum) in
  Some [map (fun i => cre (1 / (4 * PI) * (comp n i - factor * (comp x i - comp y i)) / (sum * sqrt sum))) [0; 1; 2]%nat]).

(** modified_helmholtz_3d_single_layer_potential_kernel_functor.hpp 58-82 *)
Definition slpValue (k : cpx) (x y : vec) : cpx :=
  let sum := loop3 (fun i => (comp x i - comp y i) * (comp x i - comp y i)) in
  let distance := sqrt sum in
  c_mul (cre (1 / (4 * PI) / distance)) (cexp (c_mul (c_opp k) (cre distance))).
Definition modSlp (k : cpx) : kernel := Kernel GLOBALS GLOBALS (fun test trial =>
  x <- gs_global test ;; y <- gs_global trial ;; Some [[slpValue k x y]]).
(** modified_helmholtz_3d_double_layer_potential_kernel_functor.hpp 58-88 *)
Definition modDlp (k : cpx) : kernel := Kernel GLOBALS GLOBALS_NORMALS (fun test trial =>
  x <- gs_global test ;; y <- gs_global trial ;; n <- gs_normal trial ;;
  let denominatorSum := loop3 (fun i => (comp y i - comp x i) * (comp y i - comp x i)) in
  let numeratorSum := loop3 (fun i => (comp y i - comp x i) * comp n i) in
  let distance := sqrt denominatorSum in
  Some [[c_mul (c_mul (cre (- numeratorSum / (4 * PI * denominatorSum))) (c_add k (cre (1 / distance))))
               (cexp (c_mul (c_opp k) (cre distance)))]]).
(** modified_helmholtz_3d_adjoint_double_layer_potential_kernel_functor.hpp 59-89 *)
Definition modAdlp (k : cpx) : kernel := Kernel GLOBALS_NORMALS GLOBALS (fun test trial =>
  x <- gs_global test ;; y <- gs_global trial ;; n <- gs_normal test ;;
  let denominatorSum := loop3 (fun i => (comp x i - comp y i) * (comp x i - comp y i)) in
  let numeratorSum := loop3 (fun i => (comp x i - comp y i) * comp n i) in
  let distance := sqrt denominatorSum in
  Some [[c_mul (c_mul (cre (- numeratorSum / (4 * PI * denominatorSum))) (c_add k (cre (1 / distance))))
               (cexp (c_mul (c_opp k) (cre distance)))]]).
(** modified_helmholtz_3d_hypersingular_off_diagonal_kernel_functor.hpp 57-97 *)
Definition modHyp (k : cpx) : kernel := Kernel GLOBALS_NORMALS GLOBALS_NORMALS (fun test trial =>
  x <- gs_global test ;; y <- gs_global trial ;; nTest <- gs_normal test ;; nTrial <- gs_normal trial ;;
  let distanceSq := loop3 (fun i => (comp y i - comp x i) * (comp y i - comp x i)) in
  let nTest_diff := loop3 (fun i => (comp y i - comp x i) * comp nTest i) in
  let nTrial_diff := loop3 (fun i => (comp y i - comp x i) * comp nTrial i) in
  let nTest_nTrial := loop3 (fun i => comp nTest i * comp nTrial i) in
  let distance := sqrt distanceSq in
  let kr := c_mul k (cre distance) in
  Some [[c_mul (c_mul (cre (1 / (4 * PI) / (distance * distanceSq * distanceSq)))
                 (c_add (c_mul (cre (- distanceSq * nTest_nTrial)) (c_add (cre 1) kr))
                        (c_mul (cre (nTest_diff * nTrial_diff)) (c_add (c_add (cre 3) (c_mul (cre 3) kr)) (c_mul kr kr)))))
               (cexp (c_opp kr))]]).
(** modified_helmholtz_3d_hypersingular_kernel_functor.hpp 56-77 *)
Definition modHypPair (k : cpx) : kernel := Kernel GLOBALS GLOBALS (fun test trial =>
  x <- gs_global test ;; y <- gs_global trial ;;
  let v := slpValue k x y in Some [[v]; [c_mul (c_mul v k) k]]).
(** modified_helmholtz_3d_far_field_single_layer_potential_kernel_functor.hpp 57-78 *)
Definition farSlp (k : cpx) : kernel := Kernel GLOBALS GLOBALS (fun test trial =>
  x <- gs_global test ;; y <- gs_global trial ;;
  let x_y := loop3 (fun i => comp x i * comp y i) in
  Some [[c_mul (cre (1 / (4 * PI))) (cexp (c_mul k (cre x_y)))]]).
(** modified_helmholtz_3d_far_field_double_layer_potential_kernel_functor.hpp 57-82 *)
Definition farDlp (k : cpx) : kernel := Kernel GLOBALS GLOBALS_NORMALS (fun test trial =>
  x <- gs_global test ;; y <- gs_global trial ;; n <- gs_normal trial ;;
  let x_y := loop3 (fun i => comp x i * comp y i) in
  let x_ny := loop3 (fun i => comp x i * comp n i) in
  Some [[c_mul (c_mul (c_mul (cre (1 / (4 * PI))) k) (cre x_ny)) (cexp (c_mul k (cre x_y)))]]).

(** modified_maxwell_3d_single_layer_boundary_operator_kernel_functor.hpp 59-80 *)
Definition maxwellSlbo (k : cpx) : kernel := Kernel GLOBALS GLOBALS (fun test trial =>
  x <- gs_global test ;; y <- gs_global trial ;;
  let v := slpValue k x y in Some [[c_mul v k]; [cdiv v k]]).
(** modified_maxwell_3d_single_layer_potential_operator_kernel_functor.hpp 63-98 *)
Definition maxwellSlpo (k : cpx) : kernel := Kernel GLOBALS GLOBALS (fun test trial =>
  x <- gs_global test ;; y <- gs_global trial ;;
  let distanceSq := loop3 (fun i => (comp x i - comp y i) * (comp x i - comp y i)) in
  let distance := sqrt distanceSq in
  let scaledExponential := cdiv (cexp (c_mul (c_opp k) (cre distance))) (cre (4 * PI * distance)) in
  let commonFactor := c_mul (cdiv (c_opp scaledExponential) (c_mul k (cre distanceSq))) (c_add (cre 1) (c_mul k (cre distance))) in
  Some [[c_mul k scaledExponential]; map (fun i => c_mul commonFactor (cre (comp x i - comp y i))) [0; 1; 2]%nat]).
(** modified_maxwell_3d_double_layer_operators_kernel_functor.hpp 63-95 *)
Definition maxwellDl (k : cpx) : kernel := Kernel GLOBALS GLOBALS (fun test trial =>
  x <- gs_global test ;; y <- gs_global trial ;;
  let distanceSq := loop3 (fun i => (comp x i - comp y i) * (comp x i - comp y i)) in
  let distance := sqrt distanceSq in
  let commonFactor := c_mul (cdiv (c_mul (cre (-1 / (4 * PI))) (c_add (cre 1) (c_mul k (cre distance)))) (cre (distance * distanceSq)))
                            (cexp (c_mul (c_opp k) (cre distance))) in
  Some [map (fun i => c_mul commonFactor (cre (comp x i - comp y i))) [0; 1; 2]%nat]).
(** modified_maxwell_3d_far_field_single_layer_potential_operator_kernel_functor.hpp 60-86 *)
Definition maxwellFarSl (k : cpx) : kernel := Kernel GLOBALS GLOBALS (fun test trial =>
  x <- gs_global test ;; y <- gs_global trial ;;
  let x_y := loop3 (fun i => comp x i * comp y i) in
  let commonFactor := c_mul (cre (1 / (4 * PI))) (cexp (c_mul k (cre x_y))) in
  Some [[c_mul k commonFactor]; map (fun i => c_mul (cre (- comp x i)) commonFactor) [0; 1; 2]%nat]).
(** modified_maxwell_3d_far_field_double_layer_potential_operator_kernel_functor.hpp 56-79 *)
Definition maxwellFarDl (k : cpx) : kernel := Kernel GLOBALS GLOBALS (fun test trial =>
  x <- gs_global test ;; y <- gs_global trial ;;
  let x_y := loop3 (fun i => comp x i * comp y i) in
  let commonFactor := c_mul (c_mul (cre (-1 / (4 * PI))) k) (cexp (c_mul k (cre x_y))) in
  Some [map (fun i => c_mul (cre (comp x i)) commonFactor) [0; 1; 2]%nat]).

(** operators/boundary/helmholtz.py, operators/potential/helmholtz.py: wave_number / 1j;
    lib/operators/{helmholtz_3d_far_field,maxwell}*: waveNumber / KernelType(0., 1.) *)
Definition modifiedWaveNumber (k : cpx) : cpx := cdiv k cI.

(** evaluation of the collection of kernels on element data: the integrators compute exactly the
    declared dependencies (numerical integrators: addGeometricalDependencies, then getData) *)
Definition evalKernel (K : kernel) (x nx y ny : vec) : option (list (list cpx)) :=
  k_eval K (slice (k_test K) x nx) (slice (k_trial K) y ny).

(** ---- integrands of the potential operators: value of component dim from the values
    kernelValues[a](row, 0) and the transformed trial values trialValues[a](row) ---- *)
Definition at2 (a : list (list cpx)) (k row : nat) : cpx := nth row (nth k a []) (0, 0).
(** simple_scalar_kernel_trial_integrand_functor.hpp 76 *)
Definition scalarIntegrand (kv tv : list (list cpx)) : list cpx := [c_mul (at2 tv 0 0) (at2 kv 0 0)].
(** simple_vectorial_kernel_trial_integrand_functor.hpp 75-77 *)
Definition vectorialIntegrand (kv tv : list (list cpx)) : list cpx := map (fun i => c_mul (at2 tv 0 0) (at2 kv 0 i)) [0; 1; 2]%nat.
(** modified_maxwell_3d_single_layer_potential_operator_integrand_functor.hpp 82-84 *)
Definition maxwellSlIntegrand (kv tv : list (list cpx)) : list cpx :=
  map (fun i => c_add (c_mul (c_opp (at2 kv 0 0)) (at2 tv 0 i)) (c_mul (at2 kv 1 i) (at2 tv 1 0))) [0; 1; 2]%nat.
(** modified_maxwell_3d_double_layer_potential_operator_integrand_functor.hpp 76-81 *)
Definition maxwellDlIntegrand (kv tv : list (list cpx)) : list cpx :=
  [ c_add (c_mul (at2 kv 0 1) (at2 tv 0 2)) (c_opp (c_mul (at2 kv 0 2) (at2 tv 0 1)));
    c_add (c_mul (at2 kv 0 2) (at2 tv 0 0)) (c_opp (c_mul (at2 kv 0 0) (at2 tv 0 2)));
    c_add (c_mul (at2 kv 0 0) (at2 tv 0 1)) (c_opp (c_mul (at2 kv 0 1) (at2 tv 0 0))) ].

(** lib/operators/*_potential_operator.cpp: kernel functor and integrand functor of each operator *)
Record potOp := PotOp { p_kernel : kernel; p_dim : nat; p_integrand : list (list cpx) -> list (list cpx) -> list cpx }.
(** laplace_3d_{single_layer,double_layer}[_gradient]_potential_operator.cpp 47-57 *)
Definition laplaceSingleLayer := PotOp laplaceSlp 1 scalarIntegrand.
Definition laplaceDoubleLayer := PotOp laplaceDlp 1 scalarIntegrand.
Definition laplaceSingleLayerGradient := PotOp laplaceSlpGrad 3 vectorialIntegrand.
Definition laplaceDoubleLayerGradient := PotOp laplaceDlpGrad 3 vectorialIntegrand.
(** modified_helmholtz_3d_{single,double}_layer_potential_operator.cpp 47-56 *)
Definition modifiedHelmholtzSingleLayer k := PotOp (modSlp k) 1 scalarIntegrand.
Definition modifiedHelmholtzDoubleLayer k := PotOp (modDlp k) 1 scalarIntegrand.
(** python/bempp/api/operators/potential/helmholtz.py 26-27, 52 *)
Definition helmholtzSingleLayer k := modifiedHelmholtzSingleLayer (modifiedWaveNumber k).
Definition helmholtzDoubleLayer k := modifiedHelmholtzDoubleLayer (modifiedWaveNumber k).
(** helmholtz_3d_far_field_{single,double}_layer_potential_operator.cpp 47-56 *)
Definition helmholtzFarSingleLayer k := PotOp (farSlp (modifiedWaveNumber k)) 1 scalarIntegrand.
Definition helmholtzFarDoubleLayer k := PotOp (farDlp (modifiedWaveNumber k)) 1 scalarIntegrand.
(** maxwell_3d_[far_field_]{single,double}_layer_potential_operator.cpp 46-57 *)
Definition electricField k := PotOp (maxwellSlpo (modifiedWaveNumber k)) 3 maxwellSlIntegrand.
Definition magneticField k := PotOp (maxwellDl (modifiedWaveNumber k)) 3 maxwellDlIntegrand.
Definition electricFar k := PotOp (maxwellFarSl (modifiedWaveNumber k)) 3 maxwellSlIntegrand.
Definition magneticFar k := PotOp (maxwellFarDl (modifiedWaveNumber k)) 3 maxwellDlIntegrand.

(** one quadrature point of the surface: position, normal, weight (times integration element),
    transformed values of the density *)
Record qpoint := QPoint { q_point : vec; q_normal : vec; q_weight : R; q_values : list (list cpx) }.
(** default_evaluator_for_integral_operators_imp.hpp 43-100, 152-200 (the evaluation points carry only their
    coordinates) with default_kernel_trial_integral_imp.hpp 67-102, at one evaluation point: the
    result, filled with zeros, accumulates value[dim] * weights[quadPoint] *)
Definition accumulate (acc value : list cpx) (w : R) : list cpx :=
  map (fun p => c_add (fst p) (c_mul (snd p) (cre w))) (combine acc value).
Fixpoint evaluateFrom (op : potOp) (x : vec) (acc : list cpx) (qs : list qpoint) : option (list cpx) :=
  match qs with
  | [] => Some acc
  | q :: qs' =>
    kv <- k_eval (p_kernel op) (slice GLOBALS x vzero) (slice (k_trial (p_kernel op)) (q_point q) (q_normal q)) ;;
    evaluateFrom op x (accumulate acc (p_integrand op kv (q_values q)) (q_weight q)) qs'
  end.
Definition evaluate (op : potOp) (qs : list qpoint) (x : vec) : option (list cpx) := evaluateFrom op x (repeat (0, 0) (p_dim op)) qs.
