(** The local matrices of the scalar boundary operators, as wired up in
    lib/operators/laplace_operators_imp.hpp 55-222 and
    lib/operators/modified_helmholtz_operators_imp.hpp 61-319: which shape function
    transformations, kernels and integral each operator uses with and without BLAS.

    Geometry and basis data are given per quadrature point (GeometricalData,
    BasisData); kernels are an arbitrary function of the test and trial point. *)
From Coq Require Import List Arith Bool.
From Verif Require Import Base CxRing AsmModel MatAlg ArrayModel IntgModel IntgSpec.
Import ListNotations.
Set Implicit Arguments.

Section M.
  Variable K : star_ring.
  Local Open Scope sr_scope.

  (** jacobianInverseTransposed(row, column, point) *)
  Record element := Element { e_geom : geom K; e_jit : nat -> nat -> nat -> K }.
  (** values(function, point), derivatives(direction, function, point) of scalar shape functions (basis_data.hpp). *)
  Record basis := Basis { b_dofs : nat; b_points : nat; b_value : nat -> nat -> K; b_deriv : nat -> nat -> nat -> K }.

  (** scalar_function_value_functor.hpp 33-51; scalar_function_value_times_normal_functor.hpp 33-55 (dimWorld = 3);
      surface_curl_3d_functor.hpp 35-72 *)
  Inductive elementary := FunctionValue | ValueTimesNormal | SurfaceCurl.
  Definition resultDimension (e : elementary) : nat := match e with FunctionValue => 1 | ValueTimesNormal => 3 | SurfaceCurl => 3 end.
  Definition evalElementary (e : elementary) (E : element) (B : basis) (f p d : nat) : K :=
    let n := fun i => g_normal (e_geom E) i p in
    match e with
    | FunctionValue => b_value B f p
    | ValueTimesNormal => b_value B f p * n d
    | SurfaceCurl =>
        let vec0 := b_deriv B 0 f p * e_jit E 0 0 p + b_deriv B 1 f p * e_jit E 0 1 p in
        let vec1 := b_deriv B 0 f p * e_jit E 1 0 p + b_deriv B 1 f p * e_jit E 1 1 p in
        let vec2 := b_deriv B 0 f p * e_jit E 2 0 p + b_deriv B 1 f p * e_jit E 2 1 p in
        match d with
        | 0%nat => n 1%nat * vec2 - n 2%nat * vec1
        | 1%nat => n 2%nat * vec0 - n 0%nat * vec2
        | _ => n 0%nat * vec1 - n 1%nat * vec0
        end
    end.
  (** default_collection_of_shapeset_transformations_imp.hpp 49-66 with the wrappers of
      shape_transformation_functor_wrappers.hpp: one array per transformation, filled point by point,
      function by function; the storage is the concatenation of those slices. *)
  Definition transform (ts : list elementary) (E : element) (B : basis) : list (arr3 K) :=
    map (fun e => Arr3 (resultDimension e) (b_dofs B) (b_points B)
      (flat_map (fun p => flat_map (fun f => map (evalElementary e E B f p) (seq 0 (resultDimension e))) (seq 0 (b_dofs B)))
        (seq 0 (b_points B)))) ts.

  (** default_collection_of_kernels_imp.hpp 144-163 and 125-142 for scalar kernels. *)
  Definition evaluateOnGrid (ks : list (nat -> nat -> K)) (tp rp : nat) : list (arr4 K) :=
    map (fun k => Arr4 1 1 tp rp (flat_map (fun q => map (fun p => k p q) (seq 0 tp)) (seq 0 rp))) ks.
  Definition evaluateAtPointPairs (ks : list (nat -> nat -> K)) (n : nat) : list (arr3 K) :=
    map (fun k => Arr3 1 1 n (map (fun p => k p p) (seq 0 n))) ks.

  (** The operators: [Value] for the Laplace and modified Helmholtz single layer, double layer and adjoint double
      layer operators (they differ in the kernel only); the Laplace hypersingular operator; the modified
      Helmholtz hypersingular operator with its wave number. *)
  Inductive operator := Value | LaplaceHypersingular | HelmholtzHypersingular (kappa : K).
  Definition transformations (op : operator) (blas : bool) : list elementary :=
    match op with
    | Value => [FunctionValue]
    | LaplaceHypersingular => [SurfaceCurl]
    | HelmholtzHypersingular _ => if blas then [SurfaceCurl; ValueTimesNormal] else [FunctionValue; SurfaceCurl]
    end.
  Definition functorOf (op : operator) : functor :=
    match op with Value => SimpleExt 1 | LaplaceHypersingular => SimpleExt 3 | HelmholtzHypersingular _ => Hyper2 end.
  (** modified_helmholtz_3d_hypersingular_kernel_functor.hpp 69-77 *)
  Definition kernelsOf (op : operator) (k : nat -> nat -> K) : list (nat -> nat -> K) :=
    match op with HelmholtzHypersingular kappa => [k; fun p q => k p q * kappa * kappa] | _ => [k] end.

  (** TypicalTestScalarKernelTrialIntegral by scalar types: complex basis functions with a real kernel take the generic
      loop for the tensor rule (lines 506-547 of typical_test_scalar_kernel_trial_integral.cpp); all others the
      matrix products. *)
  Inductive types := SameTypes | RealBasisComplexKernel | ComplexBasisRealKernel.
  Definition typicalTensor (ty : types) :=
    match ty with ComplexBasisRealKernel => tensorDefault (K := K) Scalar | _ => @tensorBlas K end.

  Definition localTensor (ty : types) (blas : bool) (op : operator) (testE trialE : element) (testB trialB : basis)
      (k : nat -> nat -> K) (testW trialW : list K) : res (mat K) :=
    (if blas then typicalTensor ty else tensorDefault (functorOf op))
      (e_geom testE) (e_geom trialE) (transform (transformations op blas) testE testB) (transform (transformations op blas) trialE trialB)
      (evaluateOnGrid (kernelsOf op k) (b_points testB) (b_points trialB)) testW trialW (b_dofs testB) (b_dofs trialB).
  (** Point-pair rule, basis functions and result of one type (SameTypes, ComplexBasisRealKernel). *)
  Definition localPairs (blas : bool) (op : operator) (testE trialE : element) (testB trialB : basis)
      (k : nat -> nat -> K) (w : list K) : res (mat K) :=
    let test := transform (transformations op blas) testE testB in
    let trial := transform (transformations op blas) trialE trialB in
    let kernels := evaluateAtPointPairs (kernelsOf op k) (length w) in
    if blas then nontensorBlas (e_geom testE) (e_geom trialE) test trial kernels w (b_dofs testB) (b_dofs trialB)
    else nontensorDefault (functorOf op) (e_geom testE) (e_geom trialE) test trial kernels w.

  (** blas_quadrature_helper.hpp 32-45 *)
  Inductive setting := Yes | No | Auto.
  Definition shouldUseBlas (s : setting) (domainOrder dualOrder : nat) : bool :=
    match s with Yes => true | No => false | Auto => (2 <=? domainOrder) || (2 <=? dualOrder) end.
End M.
Arguments transform {K}. Arguments localTensor {K}. Arguments localPairs {K}. Arguments evaluateOnGrid {K}. Arguments evaluateAtPointPairs {K}.
Arguments HelmholtzHypersingular {K}. Arguments functorOf {K}. Arguments kernelsOf {K}. Arguments transformations {K}. Arguments Value {K}. Arguments LaplaceHypersingular {K}. Arguments evalElementary {K}.

(** Point-pair rule, real basis functions and a complex kernel: the data are real ([F]), the kernel and the
    result complex.  With BLAS the two parts are integrated in real arithmetic; without, the loops mix the types
    (real values take part as complex ones). *)
Section S.
  Variable F : star_ring.
  Definition cGeom (g : geom F) : geom (Cx F) := Geom (Cx F) (map (@cre F) (g_ie g)) (fun d p => cre F (g_normal g d p)).
  Definition realPart (op : operator (Cx F)) : operator F :=
    match op with Value => Value | LaplaceHypersingular => LaplaceHypersingular | HelmholtzHypersingular _ => HelmholtzHypersingular zero end.
  Definition localPairsSplit (blas : bool) (op : operator (Cx F)) (testE trialE : element F) (testB trialB : basis F)
      (k : nat -> nat -> Cx F) (w : list F) : res (mat (Cx F)) :=
    let test := transform (transformations (realPart op) blas) testE testB in
    let trial := transform (transformations (realPart op) blas) trialE trialB in
    let kernels := evaluateAtPointPairs (kernelsOf op k) (length w) in
    if blas then nontensorSplit (e_geom testE) (e_geom trialE) test trial kernels w (b_dofs testB) (b_dofs trialB)
    else nontensorDefault (functorOf op) (cGeom (e_geom testE)) (cGeom (e_geom trialE))
           (map complexify test) (map complexify trial) kernels (map (@cre F) w).
End S.
