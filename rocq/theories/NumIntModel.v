(** Numerical integrators of element pairs:
    /repo/lib/fiber/separable_numerical_test_kernel_trial_integrator_imp.hpp,
    /repo/lib/fiber/nonseparable_numerical_test_kernel_trial_integrator_imp.hpp,
    /repo/lib/fiber/numerical_kernel_trial_integrator_imp.hpp (CPU paths).
    The shapesets, transformations, kernels and integrals are parameters; C97-C115 are about them. *)
From Coq Require Import List Bool Arith.
Import ListNotations.
From Verif Require Import Base ArrayModel.
Set Implicit Arguments.
Unset Strict Implicit.

(** ---- GeometricalData: geometrical_data.hpp 60-80; a field that was never set is None ---- *)
Inductive field := Globals | IntegrationElements | JacobiansTransposed | JacobianInversesTransposed | Normals | DomainIndex.
Definition field_eqb (a b : field) : bool :=
  match a, b with
  | Globals, Globals | IntegrationElements, IntegrationElements | JacobiansTransposed, JacobiansTransposed
  | JacobianInversesTransposed, JacobianInversesTransposed | Normals, Normals | DomainIndex, DomainIndex => true
  | _, _ => false end.
Definition depSet := list field.
Definition has (d : depSet) (f : field) : bool := existsb (field_eqb f) d.

Section Integrators.
(** V: arrays of geometrical data; B: basis data; T: transformed values; Kv: kernel values;
    M: local matrices; Sh: shapesets *)
Variables V B T Kv M Sh : Type.
Definition gdata := field -> option V.
Definition emptyData : gdata := fun _ => None.

(** concrete_geometry.hpp 385-406 (NORMALS also fills the transposed Jacobians; the other fields of
    data are not touched), then the assignment of domainIndex.  whole is the complete data of an
    element at the quadrature points *)
Definition getData (deps : depSet) (whole : field -> V) (data : gdata) : gdata := fun f =>
  if (has deps f || (field_eqb f JacobiansTransposed && has deps Normals))%bool then Some (whole f) else data f.

Inductive side := TEST | TRIAL.
Inductive callVariant := TEST_TRIAL | TRIAL_TEST.
(** None = ALL_DOFS *)
Definition dofSelection := option nat.

Record setup := Setup {
  testPoints : nat; trialPoints : nat;                       (** numbers of quadrature points *)
  testElement : nat -> field -> V; trialElement : nat -> field -> V;  (** geometry of the elements at the points *)
  basisEval : side -> Sh -> dofSelection -> B;               (** shapeset.evaluate(deps, points, dof) *)
  testTransDeps : depSet; trialTransDeps : depSet;           (** addDependencies of the transformations *)
  testTrans : B -> gdata -> T; trialTrans : B -> gdata -> T;
  kernelTestDeps : depSet; kernelTrialDeps : depSet;
  kernels : gdata -> gdata -> Kv;
  integralTestDeps : depSet; integralTrialDeps : depSet;
  integral : gdata -> gdata -> T -> T -> Kv -> M }.
Variable s : setup.
Definition testGeomDeps : depSet := testTransDeps s ++ kernelTestDeps s ++ integralTestDeps s.
Definition trialGeomDeps : depSet := trialTransDeps s ++ kernelTrialDeps s ++ integralTrialDeps s.

(** ---- the separable integrator ---- *)
(** precalculateGeometricalData (126-165): one entry per element, filled into fresh data *)
Definition precalculate (cached : bool) (nTest nTrial : nat) : list gdata * list gdata :=
  if cached then (map (fun e => getData testGeomDeps (testElement s e) emptyData) (seq 0 nTest),
                  map (fun e => getData trialGeomDeps (trialElement s e) emptyData) (seq 0 nTrial))
  else ([], []).
(** thread-local m_testGeomData, m_trialGeomData *)
Record local := Local { l_test : gdata; l_trial : gdata }.
Record integrator := Integrator { i_cached : bool; i_testCache : list gdata; i_trialCache : list gdata }.
Definition makeIntegrator (cached : bool) (nTest nTrial : nat) : integrator :=
  let p := precalculate cached nTest nTrial in Integrator cached (fst p) (snd p).

(** the data of element e used on one side, and the thread-local data afterwards (224-239, 263-286) *)
Definition testData (it : integrator) (e : nat) (l : local) : res (gdata * local) :=
  if i_cached it then match nth_error (i_testCache it) e with Some d => Ok (d, l) | None => Undefined end
  else let d := getData testGeomDeps (testElement s e) (l_test l) in Ok (d, Local d (l_trial l)).
Definition trialData (it : integrator) (e : nat) (l : local) : res (gdata * local) :=
  if i_cached it then match nth_error (i_trialCache it) e with Some d => Ok (d, l) | None => Undefined end
  else let d := getData trialGeomDeps (trialElement s e) (l_trial l) in Ok (d, Local (l_test l) d).

(** the loop over the elements A (259-321), writing *result[indexA] *)
Fixpoint loopTestTrial (it : integrator) (testBasis : B) (trialG : gdata) (trialValues : T) (es : list nat) (l : local) : res (list M * local) :=
  match es with
  | [] => Ok ([], l)
  | e :: es' =>
    bind (testData it e l) (fun p =>
    let testValues := testTrans s testBasis (fst p) in
    let k := kernels s (fst p) trialG in
    let m := integral s (fst p) trialG testValues trialValues k in
    bind (loopTestTrial it testBasis trialG trialValues es' (snd p)) (fun q => Ok (m :: fst q, snd q)))
  end.
Fixpoint loopTrialTest (it : integrator) (trialBasis : B) (testG : gdata) (testValues : T) (es : list nat) (l : local) : res (list M * local) :=
  match es with
  | [] => Ok ([], l)
  | e :: es' =>
    bind (trialData it e l) (fun p =>
    let trialValues := trialTrans s trialBasis (fst p) in
    let k := kernels s testG (fst p) in
    let m := integral s testG (fst p) testValues trialValues k in
    bind (loopTrialTest it trialBasis testG testValues es' (snd p)) (fun q => Ok (m :: fst q, snd q)))
  end.
(** integrateCpu (185-321): the new contents of the array result, and the thread-local data *)
Definition integrateCpu (it : integrator) (v : callVariant) (elementIndicesA : list nat) (elementIndexB : nat)
    (basisA basisB : Sh) (dofB : dofSelection) (result : list M) (l : local) : res (list M * local) :=
  if negb (length result =? length elementIndicesA)%nat then Throws
  else if ((testPoints s =? 0) || (trialPoints s =? 0) || (length elementIndicesA =? 0))%nat%bool then Ok (result, l)
  else match v with
  | TEST_TRIAL =>
    let testBasis := basisEval s TEST basisA None in
    let trialBasis := basisEval s TRIAL basisB dofB in
    bind (trialData it elementIndexB l) (fun p =>
    let trialValues := trialTrans s trialBasis (fst p) in
    loopTestTrial it testBasis (fst p) trialValues elementIndicesA (snd p))
  | TRIAL_TEST =>
    let trialBasis := basisEval s TRIAL basisA None in
    let testBasis := basisEval s TEST basisB dofB in
    bind (testData it elementIndexB l) (fun p =>
    let testValues := testTrans s testBasis (fst p) in
    loopTrialTest it trialBasis (fst p) testValues elementIndicesA (snd p))
  end.
(** integrateCpu for pairs (692-786) *)
Fixpoint loopPairs (it : integrator) (testBasis trialBasis : B) (ps : list (nat * nat)) (l : local) : res (list M * local) :=
  match ps with
  | [] => Ok ([], l)
  | (e, f) :: ps' =>
    bind (testData it e l) (fun p =>
    bind (trialData it f (snd p)) (fun q =>
    let testValues := testTrans s testBasis (fst p) in
    let trialValues := trialTrans s trialBasis (fst q) in
    let m := integral s (fst p) (fst q) testValues trialValues (kernels s (fst p) (fst q)) in
    bind (loopPairs it testBasis trialBasis ps' (snd q)) (fun r => Ok (m :: fst r, snd r))))
  end.
Definition integratePairsCpu (it : integrator) (pairs : list (nat * nat)) (testShapeset trialShapeset : Sh) (result : list M) (l : local) : res (list M * local) :=
  if negb (length result =? length pairs)%nat then Throws
  else if ((testPoints s =? 0) || (trialPoints s =? 0) || (length pairs =? 0))%nat%bool then Ok (result, l)
  else loopPairs it (basisEval s TEST testShapeset None) (basisEval s TRIAL trialShapeset None) pairs l.

(** ---- the nonseparable integrator (148-259, 261-335): never cached geometry; the pairs variant
    takes the basis data from m_cached*BasisData ---- *)
Definition noCache : integrator := Integrator false [] [].
Definition nsIntegrate := integrateCpu noCache.
(** BasisDataCache: tbb::concurrent_unordered_map keyed by the address of the shapeset *)
Definition basisCache := list (Sh * B).
Variable sh_eqb : Sh -> Sh -> bool.
Fixpoint cacheFind (c : basisCache) (k : Sh) : option B := match c with [] => None | (k', b) :: c' => if sh_eqb k k' then Some b else cacheFind c' k end.
(** insert keeps an entry that is already there; the returned iterator points to the stored one *)
Definition cacheInsert (c : basisCache) (k : Sh) (b : B) : basisCache := match cacheFind c k with Some _ => c | None => c ++ [(k, b)] end.
(** basisData (104-146) when other threads may insert between find and insert: others is what they
    have made of the cache in the meantime *)
Definition basisData (sd : side) (k : Sh) (c : basisCache) (others : basisCache -> basisCache) : option B * basisCache :=
  match cacheFind c k with
  | Some b => (Some b, c)
  | None => let b := basisEval s sd k None in
            let c' := cacheInsert (others c) k b in
            (cacheFind c' k, c')
  end.
Definition nsIntegratePairs (pairs : list (nat * nat)) (testShapeset trialShapeset : Sh)
    (testCache trialCache : basisCache) (others1 others2 : basisCache -> basisCache) (result : list M) (l : local) : res (list M * local * basisCache * basisCache) :=
  if negb (length result =? length pairs)%nat then Throws
  else if ((testPoints s =? 0) || (length pairs =? 0))%nat%bool then Ok (result, l, testCache, trialCache)
  else let p := basisData TEST testShapeset testCache others1 in
       let q := basisData TRIAL trialShapeset trialCache others2 in
       match fst p, fst q with
       | Some tb, Some rb => bind (loopPairs noCache tb rb pairs l) (fun r => Ok (fst r, snd r, snd p, snd q))
       | _, _ => Undefined
       end.
End Integrators.

(** ---- basisData (104-146) and the destructor (83-102) with the heap and any number of threads.
    One step is one operation on the concurrent map: find, or insert with what follows it. ---- *)
Section BasisCache.
Variables Sh B : Type.
Variable sh_eqb : Sh -> Sh -> bool.
Variable eval : Sh -> B.                    (** shapeset.evaluate(basisDeps, localQuadPoints, ALL_DOFS) *)
Inductive tstate := Idle | Pending (k : Sh) (p : nat).
Record cstate := CState {
  c_map : list (Sh * nat);                  (** the map: shapeset -> pointer *)
  c_heap : nat -> option B;                 (** the live BasisData objects *)
  c_next : nat;                             (** the next fresh address *)
  c_threads : nat -> tstate;
  c_returned : list (Sh * nat) }.           (** references returned so far *)
Fixpoint mapFind (c : list (Sh * nat)) (k : Sh) : option nat := match c with [] => None | (k', p) :: c' => if sh_eqb k k' then Some p else mapFind c' k end.
Definition upd {A} (f : nat -> A) (i : nat) (a : A) : nat -> A := fun j => if (j =? i)%nat then a else f j.
Definition cinit : cstate := CState [] (fun _ => None) 0 (fun _ => Idle) [].
Inductive cstep : cstate -> cstate -> Prop :=
(* 118, 145: found *)
| step_hit c i k p : c_threads c i = Idle -> mapFind (c_map c) k = Some p ->
    cstep c (CState (c_map c) (c_heap c) (c_next c) (c_threads c) ((k, p) :: c_returned c))
(* 119-129: not found; new BasisData, evaluate *)
| step_miss c i k : c_threads c i = Idle -> mapFind (c_map c) k = None ->
    cstep c (CState (c_map c) (upd (c_heap c) (c_next c) (Some (eval k))) (S (c_next c)) (upd (c_threads c) i (Pending k (c_next c))) (c_returned c))
(* 137-140: insertion succeeds *)
| step_insert c i k p : c_threads c i = Pending k p -> mapFind (c_map c) k = None ->
    cstep c (CState (c_map c ++ [(k, p)]) (c_heap c) (c_next c) (upd (c_threads c) i Idle) ((k, p) :: c_returned c))
(* 141-142: another thread was faster; delete *)
| step_lost c i k p p' : c_threads c i = Pending k p -> mapFind (c_map c) k = Some p' ->
    cstep c (CState (c_map c) (upd (c_heap c) p None) (c_next c) (upd (c_threads c) i Idle) ((k, p') :: c_returned c)).
Inductive creach : cstate -> Prop :=
| creach_init : creach cinit
| creach_step c c' : creach c -> cstep c c' -> creach c'.
(** the destructor: delete it->second for every entry; deleting a dead object is undefined *)
Fixpoint destroy (m : list (Sh * nat)) (heap : nat -> option B) : res (nat -> option B) :=
  match m with
  | [] => Ok heap
  | (_, p) :: m' => match heap p with Some _ => destroy m' (upd heap p None) | None => Undefined end
  end.
End BasisCache.

(** ---- NumericalKernelTrialIntegrator: potentials at points (numerical_kernel_trial_integrator_imp.hpp) ---- *)
Section Potential.
Variables V B T Kv M Sh : Type.
Record psetup := PSetup {
  quadPoints : nat;
  pointGlobals : nat -> V;                                   (** m_points.col(i) *)
  element : nat -> field -> V;
  pbasis : Sh -> dofSelection -> B;
  ptransDeps : depSet; ptrans : B -> gdata V -> T;
  pkernelPointDeps : depSet; pkernelTrialDeps : depSet; pkernels : gdata V -> gdata V -> Kv;
  pintegralDeps : depSet; pintegral : gdata V -> T -> Kv -> M;  (** evaluateWithPureWeights *)
  prow : nat -> M -> M }.                                     (** row componentIndex of the local matrix *)
Variable s : psetup.
Definition ptrialDeps : depSet := ptransDeps s ++ pkernelTrialDeps s ++ pintegralDeps s.
(** pointGeomData.globals = ...: the other fields stay empty whatever pointGeomDeps says *)
Definition pointData (i : nat) : gdata V := fun f => if field_eqb f Globals then Some (pointGlobals s i) else None.
(** 69-123: many points, one element *)
Definition integratePoints (points : list nat) (e : nat) (sh : Sh) (dof : dofSelection) (result : list M) : res (list M) :=
  if negb (length result =? length points)%nat then Throws
  else if ((length points =? 0) || (quadPoints s =? 0))%nat%bool then Ok result
  else let g := getData ptrialDeps (element s e) (@emptyData V) in
       let values := ptrans s (pbasis s sh dof) g in
       Ok (map (fun i => pintegral s g values (pkernels s (pointData i) g)) points).
(** 125-193: one point, many elements; trialGeomData is reused *)
Fixpoint loopElements (i : nat) (component : option nat) (sh : Sh) (es : list nat) (g : gdata V) : list M :=
  match es with
  | [] => []
  | e :: es' =>
    let g' := getData ptrialDeps (element s e) g in
    let m := pintegral s g' (ptrans s (pbasis s sh None) g') (pkernels s (pointData i) g') in
    (match component with None => m | Some c => prow s c m end) :: loopElements i component sh es' g'
  end.
Definition integrateElements (i : nat) (component : option nat) (es : list nat) (sh : Sh) (result : list M) : res (list M) :=
  if negb (length result =? length es)%nat then Throws
  else if ((length es =? 0) || (quadPoints s =? 0))%nat%bool then Ok result
  else Ok (loopElements i component sh es (@emptyData V)).
(** 195-252: pairs *)
Fixpoint loopPointElements (sh : Sh) (ps : list (nat * nat)) (g : gdata V) : list M :=
  match ps with
  | [] => []
  | (i, e) :: ps' =>
    let g' := getData ptrialDeps (element s e) g in
    pintegral s g' (ptrans s (pbasis s sh None) g') (pkernels s (pointData i) g') :: loopPointElements sh ps' g'
  end.
Definition integratePointElements (ps : list (nat * nat)) (sh : Sh) (result : list M) : res (list M) :=
  if negb (length result =? length ps)%nat then Throws
  else if ((length ps =? 0) || (quadPoints s =? 0))%nat%bool then Ok result
  else Ok (loopPointElements sh ps (@emptyData V)).
End Potential.
