(** Numerical integration of test-kernel-trial forms on one pair of elements
    (lib/fiber): the generic integral that loops over degrees of freedom and points
    (default_test_kernel_trial_integral_imp.hpp), its integrand functors, and the
    integral that reorders the data into matrices and multiplies them with BLAS/Eigen
    (typical_test_scalar_kernel_trial_integral.cpp).

    Scalars: one star ring [K], the result type.  Real-valued inputs (weights,
    integration elements, normals; basis functions or kernels of real type) are
    elements of [K] fixed by [conj]; casts between the real and complex types are
    then the identity.  Rounding is not modelled.  An assert that fails, an access
    outside a vector and [&v[0]] of an empty vector are [Undefined]. *)
From Coq Require Import List Arith Lia Bool.
From Verif Require Import Base CxRing AsmModel MatAlg ArrayModel.
Import ListNotations.
Set Implicit Arguments.

Definition assert (b : bool) : res unit := if b then Ok tt else Undefined.
Definition getAt {A} (l : list A) (i : nat) : res A :=
  match nth_error l i with Some a => Ok a | None => Undefined end.
Fixpoint loop {A} (is : list nat) (f : nat -> A -> res A) (a : A) : res A :=
  match is with [] => Ok a | i :: r => bind (f i a) (loop r f) end.
Fixpoint tabulate {A} (is : list nat) (f : nat -> res A) : res (list A) :=
  match is with [] => Ok [] | i :: r => bind (f i) (fun a => bind (tabulate r f) (fun l => Ok (a :: l))) end.

(** Fortran-ordered arrays: _3d_array.hpp, _3d_array_imp.hpp (index0 + ext0*index1 + ext0*ext1*index2), _4d_array*.hpp. *)
Record arr3 (K : star_ring) := Arr3 { x0 : nat; x1 : nat; x2 : nat; st3 : list K }.
Record arr4 (K : star_ring) := Arr4 { y0 : nat; y1 : nat; y2 : nat; y3 : nat; st4 : list K }.
Arguments Arr3 {K}. Arguments Arr4 {K}.

Section Model.
  Variable K : star_ring.
  Local Open Scope sr_scope.
  Notation mat := (mat K).

  Definition a3 (a : arr3 K) (i j k : nat) : K := nth (i + x0 a * j + x0 a * x1 a * k) (st3 a) 0.
  Definition a4 (a : arr4 K) (i j k l : nat) : K :=
    nth (i + y0 a * j + y0 a * y1 a * k + y0 a * y1 a * y2 a * l) (st4 a) 0.

  (** GeometricalData (geometrical_data.hpp): only integrationElements(point) and normals(dim, point). *)
  Record geom := Geom { g_ie : list K; g_normal : nat -> nat -> K }.

  (** Eigen::Map<Matrix>(&v[0], rows, cols): a column-major view of a vector. *)
  Definition emap (v : list K) (r c : nat) : res mat :=
    bind (assert (negb (length v =? 0) && (r * c <=? length v))) (fun _ =>
    Ok (Mat r c (fun i j => nth (i + j * r) v 0))).
  (** Assignment of a matrix expression through such a map: the vector it writes. *)
  Definition store (m : mat) : list K :=
    flat_map (fun j => map (fun i => m_at m i j) (seq 0 (m_rows m))) (seq 0 (m_cols m)).

  (** The p-th slice of a 3D array seen as a transDim x dofCount matrix (sourceSliceStart + p * sliceSize). *)
  Definition sliceMat (v : arr3 K) (p : nat) : mat :=
    Mat (x0 v) (x1 v) (fun i j => nth (p * (x0 v * x1 v) + (i + j * x0 v)) (st3 v) 0).

  (** typical_test_scalar_kernel_trial_integral.cpp 48-79 (weights from the geometry and the rule) and
      81-111 (given weights): slice by slice, weight * slice^H, stored one after another. *)
  Definition reorderWeighted (w : nat -> K) (v : arr3 K) : list K :=
    flat_map (fun p => store (mScale (w p) (mH (sliceMat v p)))) (seq 0 (x2 v)).
  (** lines 113-139 *)
  Definition reorder (v : arr3 K) : list K :=
    flat_map (fun p => store (mH (sliceMat v p))) (seq 0 (x2 v)).

  Definition quadWeight (g : geom) (w : list K) (p : nat) : K := nth p (g_ie g) 0 * nth p w 0.
  Definition zeroMat (r c : nat) : mat := Mat r c (fun _ _ => 0).

  (** Asserts shared by lines 165-187 and 253-288: at least one transformation, as many test as trial
      transformations, one kernel or one per transformation, equal degree-of-freedom counts and point counts. *)
  Definition valuesOk (dofs pts : nat) (vs : list (arr3 K)) : bool :=
    forallb (fun v => (x1 v =? dofs) && (x2 v =? pts)) vs.
  Definition firstDofs (vs : list (arr3 K)) : res nat := bind (getAt vs 0) (fun v => Ok (x1 v)).
  Definition countsOk (test trial kernels : nat) : bool :=
    (1 <=? test) && (trial =? test) && ((kernels =? 1) || (kernels =? test)).

  (** lines 227-352, evaluateWithTensorQuadratureRuleImpl; [result] has been sized rows x cols by the caller.
      The integration elements are read point by point: too few of them is an access out of range. *)
  Definition tensorStep (testGeom trialGeom : geom) (testValues trialValues : list (arr3 K)) (kernels : list (arr4 K))
      (testW trialW : list K) (testDofs trialDofs : nat) (t : nat) (result : mat) : res mat :=
    let tp := length testW in let rp := length trialW in
    bind (getAt testValues t) (fun test => bind (getAt trialValues t) (fun trial =>
    let dim := x0 test in
    bind (assert ((0 <? dim) && (x0 trial =? dim))) (fun _ =>
    bind (getAt kernels (if length kernels =? 1 then 0 else t)) (fun kernel =>
    bind (emap (st4 kernel) tp rp) (fun matKernel =>
    bind (assert ((tp <=? length (g_ie testGeom)) && (rp <=? length (g_ie trialGeom)))) (fun _ =>
    if trialDofs <=? testDofs then
      bind (emap (reorderWeighted (quadWeight trialGeom trialW) trial) (trialDofs * dim) rp) (fun matTrial =>
      bind (emap (store (mMul matTrial (mH matKernel))) trialDofs (dim * tp)) (fun shuffled =>
      bind (emap (reorderWeighted (quadWeight testGeom testW) test) testDofs (dim * tp)) (fun matTest =>
      Ok (mAdd result (mMul matTest (mH shuffled))))))
    else
      bind (emap (reorderWeighted (quadWeight testGeom testW) test) (testDofs * dim) tp) (fun matTest =>
      bind (emap (store (mMul matTest matKernel)) testDofs (dim * rp)) (fun shuffled =>
      bind (emap (reorderWeighted (quadWeight trialGeom trialW) trial) trialDofs (dim * rp)) (fun matTrial =>
      Ok (mAdd result (mMul shuffled (mH matTrial)))))))))))).

  Definition tensorBlas (testGeom trialGeom : geom) (testValues trialValues : list (arr3 K)) (kernels : list (arr4 K))
      (testW trialW : list K) (rows cols : nat) : res mat :=
    let tp := length testW in let rp := length trialW in
    bind (assert (countsOk (length testValues) (length trialValues) (length kernels))) (fun _ =>
    bind (firstDofs testValues) (fun testDofs => bind (firstDofs trialValues) (fun trialDofs =>
    bind (assert (forallb (fun k => (y0 k =? 1) && (y1 k =? 1) && (y2 k =? tp) && (y3 k =? rp)) kernels
                  && valuesOk testDofs tp testValues && valuesOk trialDofs rp trialValues
                  && (rows =? testDofs) && (cols =? trialDofs))) (fun _ =>
    loop (seq 0 (length testValues))
      (tensorStep testGeom trialGeom testValues trialValues kernels testW trialW testDofs trialDofs)
      (zeroMat testDofs trialDofs))))).

  (** lines 148-224, evaluateWithNontensorQuadratureRuleStandardImpl: the vector [products] is computed for the
      first transformation and recomputed for the others only when there are several kernels. *)
  Definition productsOf (testGeom trialGeom : geom) (kernel : arr3 K) (w : list K) : list K :=
    map (fun p => conj (a3 kernel 0 0 p) * nth p (g_ie testGeom) 0 * nth p (g_ie trialGeom) 0 * nth p w 0) (seq 0 (length w)).
  Definition nontensorStep (testGeom trialGeom : geom) (testValues trialValues : list (arr3 K)) (kernels : list (arr3 K))
      (w : list K) (testDofs trialDofs : nat) (t : nat) (s : list K * mat) : res (list K * mat) :=
    let n := length w in
    bind (getAt testValues t) (fun test => bind (getAt trialValues t) (fun trial =>
    let dim := x0 test in
    bind (assert (x0 trial =? dim)) (fun _ =>
    bind (if (t =? 0) || (1 <? length kernels)
          then bind (getAt kernels t) (fun kernel =>
               bind (assert ((n <=? length (g_ie testGeom)) && (n <=? length (g_ie trialGeom)))) (fun _ =>
               Ok (productsOf testGeom trialGeom kernel w)))
          else Ok (fst s)) (fun products =>
    bind (emap (reorder test) testDofs (n * dim)) (fun matTest =>
    bind (emap (reorderWeighted (fun p => nth p products 0) trial) trialDofs (n * dim)) (fun matTrial =>
    Ok (products, mAdd (snd s) (mMul matTest (mH matTrial))))))))).

  Definition nontensorBlas (testGeom trialGeom : geom) (testValues trialValues : list (arr3 K)) (kernels : list (arr3 K))
      (w : list K) (rows cols : nat) : res mat :=
    let n := length w in
    bind (assert (countsOk (length testValues) (length trialValues) (length kernels))) (fun _ =>
    bind (firstDofs testValues) (fun testDofs => bind (firstDofs trialValues) (fun trialDofs =>
    bind (assert (forallb (fun k => x2 k =? n) kernels && valuesOk testDofs n testValues && valuesOk trialDofs n trialValues
                  && (rows =? testDofs) && (cols =? trialDofs))) (fun _ =>
    bind (loop (seq 0 (length testValues))
           (nontensorStep testGeom trialGeom testValues trialValues kernels w testDofs trialDofs)
           (repeat 0 n, zeroMat testDofs trialDofs)) (fun s => Ok (snd s)))))).

  (** ---- the generic integral ---- *)

  (** A transformation's values at one point for one function (CollectionOf1dSlicesOfConst3dArrays) and
      the kernels' values for one pair of points (CollectionOf2dSlicesOfConstNdArrays). *)
  Record slice1 := Slice1 { s_dim : nat; s_at : nat -> K }.
  Record slice2 := Slice2 { k_rows : nat; k_cols : nat; k_at : nat -> nat -> K }.
  Definition dot (n : nat) (a b : nat -> K) : K := fold_left (fun acc d => acc + conj (a d) * b d) (seq 0 n) 0.

  (** The integrand functors:
      [Scalar]     test_scalar_kernel_trial_integrand_functor.hpp 55-93;
      [Simple]     simple_test_scalar_kernel_trial_integrand_functor.hpp 58-89;
      [SimpleExt]  ditto 107-139 (transformation dimension fixed at compile time);
      [Hyper2]     modified_helmholtz_3d_hypersingular_integrand_functor_2.hpp 51-104. *)
  Inductive functor := Scalar | Simple | SimpleExt (dim : nat) | Hyper2.

  Definition evalFunctor (F : functor) (testNormal trialNormal : nat -> K)
      (test trial : list slice1) (kernels : list slice2) : res K :=
    match F with
    | Scalar =>
        bind (getAt kernels 0) (fun k0 => bind (assert ((k_rows k0 =? 1) && (k_cols k0 =? 1))) (fun _ =>
        let n := length test in
        bind (assert ((1 <=? n) && (length trial =? n) && ((length kernels <=? 1) || (length kernels =? n)))) (fun _ =>
        loop (seq 0 n) (fun t result =>
          bind (getAt test t) (fun a => bind (getAt trial t) (fun b =>
          bind (assert (s_dim b =? s_dim a)) (fun _ =>
          bind (getAt kernels (if n =? 1 then 0 else t)) (fun k =>
          Ok (result + dot (s_dim a) (s_at a) (s_at b) * k_at k 0 0)))))) 0)))
    | Simple =>
        bind (getAt kernels 0) (fun k => bind (getAt test 0) (fun a => bind (getAt trial 0) (fun b =>
        bind (assert ((k_rows k =? 1) && (k_cols k =? 1) && (s_dim a =? s_dim b))) (fun _ =>
        Ok (dot (s_dim a) (s_at a) (s_at b) * k_at k 0 0)))))
    | SimpleExt dim =>
        bind (getAt kernels 0) (fun k => bind (getAt test 0) (fun a => bind (getAt trial 0) (fun b =>
        bind (assert ((k_rows k =? 1) && (k_cols k =? 1) && (s_dim a =? dim) && (s_dim b =? dim))) (fun _ =>
        Ok (dot dim (s_at a) (s_at b) * k_at k 0 0)))))
    | Hyper2 =>
        bind (getAt kernels 0) (fun k0 => bind (getAt kernels 1) (fun k1 =>
        bind (getAt test 0) (fun tv => bind (getAt trial 0) (fun rv =>
        bind (getAt test 1) (fun tc => bind (getAt trial 1) (fun rc =>
        bind (assert ((k_rows k0 =? 1) && (k_cols k0 =? 1) && (k_rows k1 =? 1) && (k_cols k1 =? 1)
                      && (s_dim tv =? 1) && (s_dim rv =? 1) && (s_dim tc =? 3) && (s_dim rc =? 3))) (fun _ =>
        let term0 := k_at k0 0 0 * dot 3 (s_at tc) (s_at rc) in
        let nn := fold_left (fun acc d => acc + testNormal d * trialNormal d) (seq 0 3) 0 in
        let term1 := k_at k1 0 0 * (nn * conj (s_at tv 0) * s_at rv 0) in
        Ok (term0 + term1))))))))
    end.

  Definition cut (vs : list (arr3 K)) (dof point : nat) : list slice1 :=
    map (fun v => Slice1 (x0 v) (fun d => a3 v d dof point)) vs.
  Definition cutK4 (ks : list (arr4 K)) (p q : nat) : list slice2 := map (fun k => Slice2 (y0 k) (y1 k) (fun i j => a4 k i j p q)) ks.
  Definition cutK3 (ks : list (arr3 K)) (p : nat) : list slice2 := map (fun k => Slice2 (x0 k) (x1 k) (fun i j => a3 k i j p)) ks.

  (** result(testDof, trialDof) = ... for all pairs: default_test_kernel_trial_integral_imp.hpp 75-98, 129-143. *)
  Definition fill (rows cols : nat) (entry : nat -> nat -> res K) : res mat :=
    bind (tabulate (seq 0 cols) (fun g => tabulate (seq 0 rows) (fun f => entry f g))) (fun columns =>
    Ok (Mat rows cols (fun f g => nth f (nth g columns []) 0))).

  (** default_test_kernel_trial_integral_imp.hpp 42-99 *)
  Definition tensorDefault (F : functor) (testGeom trialGeom : geom) (testValues trialValues : list (arr3 K)) (kernels : list (arr4 K))
      (testW trialW : list K) (rows cols : nat) : res mat :=
    let tp := length testW in let rp := length trialW in
    bind (firstDofs testValues) (fun testDofs => bind (firstDofs trialValues) (fun trialDofs =>
    bind (assert (forallb (fun k => (y2 k =? tp) && (y3 k =? rp)) kernels
                  && forallb (fun v => x2 v =? tp) testValues && forallb (fun v => x2 v =? rp) trialValues
                  && (rows =? testDofs) && (cols =? trialDofs)
                  && (tp <=? length (g_ie testGeom)) && (rp <=? length (g_ie trialGeom)))) (fun _ =>
    fill testDofs trialDofs (fun f g =>
      loop (seq 0 rp) (fun q sum =>
        bind (loop (seq 0 tp) (fun p partial =>
               bind (evalFunctor F (fun d => g_normal testGeom d p) (fun d => g_normal trialGeom d q)
                       (cut testValues f p) (cut trialValues g q) (cutK4 kernels p q)) (fun v =>
               Ok (partial + v * (nth p (g_ie testGeom) 0 * nth p testW 0)))) 0) (fun partial =>
        Ok (sum + partial * (nth q (g_ie trialGeom) 0 * nth q trialW 0)))) 0)))).

  (** lines 101-144 *)
  Definition nontensorDefault (F : functor) (testGeom trialGeom : geom) (testValues trialValues : list (arr3 K)) (kernels : list (arr3 K))
      (w : list K) : res mat :=
    let n := length w in
    bind (firstDofs testValues) (fun testDofs => bind (firstDofs trialValues) (fun trialDofs =>
    bind (assert (forallb (fun k => x2 k =? n) kernels && forallb (fun v => x2 v =? n) testValues && forallb (fun v => x2 v =? n) trialValues
                  && (n <=? length (g_ie testGeom)) && (n <=? length (g_ie trialGeom)))) (fun _ =>
    fill testDofs trialDofs (fun f g =>
      loop (seq 0 n) (fun p sum =>
        bind (evalFunctor F (fun d => g_normal testGeom d p) (fun d => g_normal trialGeom d p)
                (cut testValues f p) (cut trialValues g p) (cutK3 kernels p)) (fun v =>
        Ok (sum + v * (nth p (g_ie testGeom) 0 * nth p (g_ie trialGeom) 0 * nth p w 0)))) 0)))).
End Model.
Arguments emap {K}. Arguments productsOf {K}. Arguments evalFunctor {K}. Arguments dot {K}. Arguments nontensorBlas {K}. Arguments tensorBlas {K}. Arguments tensorDefault {K}. Arguments nontensorDefault {K}.

(** lines 375-475: the non-tensor rule for real basis functions and a complex kernel.  The real and
    imaginary parts of the kernel are integrated separately in real arithmetic ([F]) and combined.  The two real
    result matrices are assigned for the first transformation and accumulated afterwards. *)
Section Split.
  Variable F : star_ring.
  Local Open Scope sr_scope.
  Definition productsPart (part : Cx F -> F) (testGeom trialGeom : geom F) (kernel : arr3 (Cx F)) (w : list F) : list F :=
    map (fun p => part (a3 kernel 0 0 p) * (nth p (g_ie testGeom) 0 * nth p (g_ie trialGeom) 0 * nth p w 0)) (seq 0 (length w)).
  Record splitState := Split { sp_re : list F; sp_im : list F; sp_matRe : mat F; sp_matIm : mat F }.
  Definition splitStep (testGeom trialGeom : geom F) (testValues trialValues : list (arr3 F)) (kernels : list (arr3 (Cx F)))
      (w : list F) (testDofs trialDofs : nat) (t : nat) (s : splitState) : res splitState :=
    let n := length w in
    bind (getAt testValues t) (fun test => bind (getAt trialValues t) (fun trial =>
    let dim := x0 test in
    bind (assert (x0 trial =? dim)) (fun _ =>
    bind (if (t =? 0) || (1 <? length kernels)
          then bind (getAt kernels t) (fun kernel =>
               bind (assert ((n <=? length (g_ie testGeom)) && (n <=? length (g_ie trialGeom)))) (fun _ =>
               Ok (productsPart fst testGeom trialGeom kernel w, productsPart snd testGeom trialGeom kernel w)))
          else Ok (sp_re s, sp_im s)) (fun products =>
    bind (emap (reorder test) testDofs (n * dim)) (fun matTest =>
    bind (emap (reorderWeighted (fun p => nth p (fst products) 0) trial) trialDofs (n * dim)) (fun trialRe =>
    bind (emap (reorderWeighted (fun p => nth p (snd products) 0) trial) trialDofs (n * dim)) (fun trialIm =>
    let re := mMul matTest (mH trialRe) in
    let im := mMul matTest (mH trialIm) in
    Ok (Split (fst products) (snd products)
         (if t =? 0 then re else mAdd (sp_matRe s) re) (if t =? 0 then im else mAdd (sp_matIm s) im))))))))).

  Definition nontensorSplit (testGeom trialGeom : geom F) (testValues trialValues : list (arr3 F)) (kernels : list (arr3 (Cx F)))
      (w : list F) (rows cols : nat) : res (mat (Cx F)) :=
    let n := length w in
    bind (assert (countsOk (length testValues) (length trialValues) (length kernels))) (fun _ =>
    bind (firstDofs testValues) (fun testDofs => bind (firstDofs trialValues) (fun trialDofs =>
    bind (assert (forallb (fun k => x2 k =? n) kernels && valuesOk testDofs n testValues && valuesOk trialDofs n trialValues
                  && (rows =? testDofs) && (cols =? trialDofs))) (fun _ =>
    bind (loop (seq 0 (length testValues))
           (splitStep testGeom trialGeom testValues trialValues kernels w testDofs trialDofs)
           (Split (repeat 0 n) (repeat 0 n) (zeroMat F testDofs trialDofs) (zeroMat F testDofs trialDofs))) (fun s =>
    Ok (@Mat (Cx F) (m_rows (sp_matRe s)) (m_cols (sp_matRe s)) (fun i j => (m_at (sp_matRe s) i j, m_at (sp_matIm s) i j)))))))).
End Split.
