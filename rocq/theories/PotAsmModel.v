(** Assembly of potential operators in H-matrix mode:
    /repo/lib/fiber/default_quadrature_descriptor_selector_for_potential_operators.cpp:46-98 (choice of the rule),
    /repo/lib/fiber/default_local_assembler_for_potential_operators_on_surfaces_imp.hpp:82-259 (local contributions in batches),
    /repo/lib/fiber/default_kernel_trial_integral_imp.hpp:94-135 (the quadrature sum),
    /repo/lib/assembly/potential_operator_hmat_assembly_helper.cpp (blocks and volumes),
    /repo/lib/assembly/hmat_global_assembler.cpp:67-110 and /repo/lib/hmat/geometry_impl.hpp:13-20 (geometry of the rows).
    The integrators themselves (numerical_kernel_trial_integrator_imp.hpp) are those of NumIntModel, the dof and component
    lists those of DofListModel.  Integrators are identified with their descriptors (getIntegrator, 297-348, keeps one per
    descriptor; C151_integrators is about that map).  fillQuadraturePointsAndWeights is a function from descriptors to rules;
    descriptors for which it throws are not modelled.  Real arithmetic is exact. *)
From Coq Require Import Reals ZArith List Bool Arith.
Import ListNotations.
From Verif Require Import Base ArrayModel BoxModel QuadModel AccModel AsmModel DofListModel NumIntModel.
Set Implicit Arguments.
Unset Strict Implicit.

(** single_quadrature_descriptor.hpp:33-49 *)
Record sdesc := SDesc { s_vertexCount : nat; s_order : Z }.
Definition sdesc_dec (a b : sdesc) : {a = b} + {a <> b}.
Proof. decide equality; [apply Z.eq_dec | apply Nat.eq_dec]. Defined.

(** ---- the selector ---- *)
Section Selector.
  Local Open Scope R_scope.
  (** AccuracyOptionsEx::singleRegular, the grid *)
  Variable ranges : list bracket.
  Variable g : sgeom.
  (** 72-85; a division by zero gives infinity or NaN: here Undefined *)
  Definition pNormalised (x : point) (e : nat) (nominal : R) : res dist :=
    if Rlt_dec nominal 0
    then if Req_EM_T (sizeSquared g e) 0 then Undefined else Ok (Fin (sqrt (sqDist x (centre g e) / sizeSquared g e)))
    else if Req_EM_T (averageSize g) 0 then Undefined else Ok (Fin (nominal / averageSize g)).
  (** 50-60, 62-98 *)
  Definition pDescriptor (x : point) (e : nat) (nominal : R) : res sdesc :=
    match nth_error (sg_corners g) e with
    | None => Undefined
    | Some corners =>
      bind (pNormalised x e nominal) (fun d =>
      bind (lookup ranges d) (fun o =>
      Ok (SDesc (length corners) (quadratureOrder o (2 * sg_order g e)%Z))))
    end.
End Selector.

(** ---- integration in batches of equal quadrature variants ---- *)
Section Batches.
  Variables Q X M : Type.
  Variable qdec : forall a b : Q, {a = b} + {a <> b}.
  (** activeIntegrator.integrate: the new contents of the active results *)
  Variable run : Q -> list X -> list M -> res (list M).
  (** the entries of a list whose variant is v (137-142, 199-204, 262-268) *)
  Fixpoint active {A} (v : Q) (qs : list Q) (l : list A) : list A :=
    match qs, l with
    | q :: qs', a :: l' => if qdec q v then a :: active v qs' l' else active v qs' l'
    | _, _ => []
    end.
  (** writing through the pointers in activeLocalResults *)
  Fixpoint putBack (v : Q) (qs : list Q) (l new : list M) : list M :=
    match qs, l with
    | q :: qs', m :: l' =>
      if qdec q v then match new with n :: new' => n :: putBack v qs' l' new' | [] => m :: l' end
      else m :: putBack v qs' l' new
    | _, _ => l
    end.
  (** 127-148, 189-210, 251-274 *)
  Fixpoint batches (vs : list Q) (qs : list Q) (xs : list X) (results : list M) : res (list M) :=
    match vs with
    | [] => Ok results
    | v :: r => bind (run v (active v qs xs) (active v qs results)) (fun new => batches r qs xs (putBack v qs results new))
    end.
End Batches.
(** std::vector::resize: entries that are there stay, new ones are default-constructed *)
Definition resized {M} (fresh : M) (n : nat) (old : list M) : list M := firstn n old ++ repeat fresh (n - length old).

Section Assembler.
  Variable K : star_ring.
  Local Open Scope sr_scope.
  (** Xl: points of the reference element; Bd: values of the shape functions at one of them; Sh: shapesets *)
  Variables Xl Bd Sh : Type.
  Variable sh_dec : forall a b : Sh, {a = b} + {a <> b}.
  (** geometrical data at one quadrature point; None: not computed *)
  Definition slice := field -> option (list K).
  Record ingredients := Ingredients {
    in_points : list point;                                 (** the evaluation points, m_points *)
    in_embed : point -> list K;                             (** their coordinates as kernels see them *)
    in_geometry : nat -> field -> Xl -> list K;             (** element, what, where *)
    in_shapeset : nat -> Sh;                                (** the shapeset of an element *)
    in_dofs : Sh -> nat;                                    (** Shapeset::size() *)
    in_basis : Sh -> dofSelection -> Xl -> Bd;              (** Shapeset::evaluate at one point *)
    in_transDeps : depSet; in_trans : Bd -> slice -> nat -> list K;   (** transformation of the dof-th function *)
    in_kernelPointDeps : depSet; in_kernelDeps : depSet; in_kernel : slice -> slice -> list K;
    in_components : nat;                                    (** resultDimension() *)
    in_functorDeps : depSet; in_functor : slice -> list K -> list K -> nat -> K }.
  Variable I : ingredients.
  Definition rule := list (Xl * K).

  (** arrays of geometrical data hold one entry per quadrature point *)
  Definition V := list (list K).
  Definition at_ (gd : gdata V) (q : nat) : slice := fun f => match gd f with Some v => nth_error v q | None => None end.
  Definition ie (s : slice) : K := match s IntegrationElements with Some (j :: _) => j | _ => 0 end.
  (** arrays of transformed values: for every dof and every quadrature point, the values *)
  Definition T := list (list (list K)).
  (** evaluateWithPureWeights, 94-135: result = 0; for every dof and quadrature point, result(dim, dof) += value[dim] * J * w *)
  Definition pureWeights (weights : list K) (gd : gdata V) (values : T) (kernels : list (list K)) : mat K :=
    let table := map (fun dim => map (fun dofValues =>
        fold_left (fun acc q => acc + in_functor I (at_ gd q) (nth q kernels []) (nth q dofValues []) dim * ie (at_ gd q) * nth q weights 0)
                  (seq 0 (length weights)) 0) values) (seq 0 (in_components I)) in
    Mat (in_components I) (length values) (fun dim dof => nth dof (nth dim table []) 0).
  (** the integrator of a rule: NumericalKernelTrialIntegrator.  Basis data: number of dofs, values at the quadrature points *)
  Definition integratorOf (r : rule) : psetup V (nat * list Bd) T (list (list K)) (mat K) Sh :=
    PSetup (length r)
      (fun i => [match nth_error (in_points I) i with Some x => in_embed I x | None => [] end])
      (fun e f => map (fun xw => in_geometry I e f (fst xw)) r)
      (fun sh sel => (match sel with None => in_dofs I sh | Some _ => 1%nat end, map (fun xw => in_basis I sh sel (fst xw)) r))
      (in_transDeps I)
      (fun b gd => map (fun dof => map (fun xq => in_trans I (fst xq) (at_ gd (snd xq)) dof) (combine (snd b) (seq 0 (length (snd b))))) (seq 0 (fst b)))
      (in_kernelPointDeps I) (in_kernelDeps I)
      (fun pd gd => map (fun q => in_kernel I (at_ pd 0) (at_ gd q)) (seq 0 (length r)))
      (IntegrationElements :: in_functorDeps I)
      (pureWeights (map snd r))
      (fun c m => Mat 1 (m_cols m) (fun _ j => m_at m c j)).

  (** the assembler: accuracy, grid, rules *)
  Variable ranges : list bracket.
  Variable g : sgeom.
  Variable rules : sdesc -> rule.
  (** order in which a std::set of addresses is enumerated *)
  Variable order1 : list sdesc -> list sdesc.
  Variable order2 : list (sdesc * Sh) -> list (sdesc * Sh).
  Definition variant_dec (a b : sdesc * Sh) : {a = b} + {a <> b}.
  Proof. decide equality. apply sdesc_dec. Defined.
  Variable fresh : mat K.                                   (* a default-constructed matrix *)

  (** selectIntegrator, 285-295; m_points.col(i) *)
  Definition selectIntegrator (i e : nat) (nominal : R) : res sdesc :=
    match nth_error (in_points I) i with Some x => pDescriptor ranges g x e nominal | None => Undefined end.
  Definition selectVariant (i e : nat) (nominal : R) : res (sdesc * Sh) :=
    bind (selectIntegrator i e nominal) (fun d => Ok (d, in_shapeset I e)).
  (** 82-148 *)
  Definition evaluatePoints (pts : list nat) (e : nat) (dof : dofSelection) (old : list (mat K)) (nominal : R) : res (list (mat K)) :=
    bind (mapRes (fun i => selectIntegrator i e nominal) pts) (fun qs =>
    batches sdesc_dec (fun d xs rs => integratePoints (integratorOf (rules d)) xs e (in_shapeset I e) dof rs)
      (order1 qs) qs pts (resized fresh (length pts) old)).
  (** 150-212; component None = ALL_COMPONENTS *)
  Definition evaluateElements (i : nat) (component : option nat) (es : list nat) (old : list (mat K)) (nominal : R) : res (list (mat K)) :=
    bind (mapRes (fun e => selectVariant i e nominal) es) (fun qs =>
    batches variant_dec (fun v xs rs => integrateElements (integratorOf (rules (fst v))) i component xs (snd v) rs)
      (order2 qs) qs es (resized fresh (length es) old)).
  (** 214-276; the result is listed trial element by trial element *)
  Definition allPairs (pts es : list nat) : list (nat * nat) := flat_map (fun e => map (fun i => (i, e)) pts) es.
  Definition evaluatePairs (pts es : list nat) (old : list (mat K)) (nominal : R) : res (list (mat K)) :=
    bind (mapRes (fun p => selectVariant (fst p) (snd p) nominal) (allPairs pts es)) (fun qs =>
    batches variant_dec (fun v xs rs => integratePointElements (integratorOf (rules (fst v))) xs (snd v) rs)
      (order2 qs) qs (allPairs pts es) (resized fresh (length (allPairs pts es)) old)).

  (** ---- the entry accessor: potential_operator_hmat_assembly_helper.cpp:87-190 ---- *)
  (** localResult(i, j); out of bounds is undefined *)
  Definition entryOf (m : mat K) (i j : nat) : res K := if (i <? m_rows m) && (j <? m_cols m) then Ok (m_at m i j) else Undefined.
  Definition nthRes {A} (l : list A) (n : nat) : res A := match nth_error l n with Some a => Ok a | None => Undefined end.
  (** the updates of data for one element and local dof: points gp with number n in pointIndices *)
  Definition overPoints (LC : compLists) (f : nat -> nat -> nat -> res (nat * nat * K)) : res (list (nat * nat * K)) :=
    bind (mapRes (fun ngp => mapRes (fun x => f (fst ngp) (fst x) (snd x)) (snd (snd ngp))) (combine (seq 0 (length LC)) LC))
         (fun l => Ok (concat l)).
  Definition overDofs (LU : dofLists K) (f : nat -> nat -> nat -> K -> nat -> res (list (nat * nat * K))) : res (list (nat * nat * K)) :=
    bind (mapRes (fun ngu => bind (mapRes (fun y => let '(j, v, col) := y in f (fst ngu) (fst (snd ngu)) j v col) (snd (snd ngu)))
                                  (fun l => Ok (concat l)))
                 (combine (seq 0 (length (dl_groups LU))) (dl_groups LU)))
         (fun l => Ok (concat l)).
  (** 124-147 *)
  Definition columnCalls (LC : compLists) (LU : dofLists K) (nominal : R) : res (list (nat * nat * K)) :=
    overDofs LU (fun _ e j v _ =>
      bind (evaluatePoints (map fst LC) e (Some j) [] nominal) (fun localResult =>
      overPoints LC (fun n k row => bind (nthRes localResult n) (fun m => bind (entryOf m k 0) (fun a => Ok (row, 0%nat, v * a)))))).
  (** 148-166 *)
  Definition rowCalls (LC : compLists) (LU : dofLists K) (nominal : R) : res (list (nat * nat * K)) :=
    match LC with
    | (p, (k, _) :: _) :: _ =>
      bind (evaluateElements p (Some k) (map fst (dl_groups LU)) [] nominal) (fun localResult =>
      overDofs LU (fun n _ j v col => bind (nthRes localResult n) (fun m => bind (entryOf m 0 j) (fun a => Ok [(0%nat, col, v * a)]))))
    | _ => Undefined
    end.
  (** 167-189; localResult(nPoint, nTrialElem) of a _2dArray *)
  Definition fatCalls (LC : compLists) (LU : dofLists K) (nominal : R) : res (list (nat * nat * K)) :=
    bind (evaluatePairs (map fst LC) (map fst (dl_groups LU)) [] nominal) (fun localResult =>
    overDofs LU (fun ne _ j v col =>
      overPoints LC (fun np k row => bind (nthRes localResult (np + length LC * ne)%nat) (fun m => bind (entryOf m k j) (fun a => Ok (row, col, v * a)))))).
  (** 87-190; [nominal] is the distance of the bounding boxes of the block (estimateMinimumDistance, 71-85) *)
  Definition potentialBlock (U : space K) (pR pU : list nat) (nominal : R) (r0 r1 c0 c1 : nat) : res (mat K) :=
    if ((r1 <? r0) || (c1 <? c0))%nat then Undefined else
    let nr := (r1 - r0)%nat in let nc := (c1 - c0)%nat in
    match getComponents pR (in_components I) r0 nr, getLists U pU c0 nc with
    | Some LC, Some LU =>
      bind (if (nc =? 1)%nat then columnCalls LC LU nominal else if (nr =? 1)%nat then rowCalls LC LU nominal else fatCalls LC LU nominal)
        (fun us => match addAll (zeroMat nr nc) us with Some m => Ok m | None => Undefined end)
    | _, _ => Undefined
    end.
End Assembler.

(** ---- the geometry of the rows: hmat_global_assembler.cpp:67-110 ---- *)
Record pgi := Pgi { pg_p : nat; pg_c : nat }.
(** next(): the degenerate bounding box and centre of the current point, or null.  The comparison of c with
    m_componentCount - 1 is between size_t and int: for m_componentCount = 0 it is never true below 2^64. *)
Definition pgiNext (points : list point) (comps : nat) (s : pgi) : option point * pgi :=
  match nth_error points (pg_p s) with
  | None => (None, s)
  | Some x => (Some x, if (0 <? comps) && (pg_c s =? comps - 1) then Pgi (S (pg_p s)) 0 else Pgi (pg_p s) (S (pg_c s)))
  end.
(** fillGeometry: while ((it = next())) push_back(it); None: fuel exhausted *)
Fixpoint fillGeometry (fuel : nat) (points : list point) (comps : nat) (s : pgi) : option (list point) :=
  match fuel with
  | O => None
  | S f => match pgiNext points comps s with
           | (None, _) => Some []
           | (Some x, s') => match fillGeometry f points comps s' with Some l => Some (x :: l) | None => None end
           end
  end.

(** ---- dofVolumes ---- *)
Section Volumes.
  Variable K : star_ring.
  (** DBL_MAX, the volume of an element *)
  Variable vmax : R.
  Variable volume : nat -> R.
  (** volumes[i] = std::min(volumes[i], volume); None: out of bounds *)
  Definition lower (vs : list R) (iv : nat * R) : option (list R) :=
    match nth_error vs (fst iv) with Some x => Base.upd vs (fst iv) (Rmin x (snd iv)) | None => None end.
  Fixpoint lowerAll (vs : list R) (l : list (nat * R)) : option (list R) :=
    match l with [] => Some vs | iv :: r => match lower vs iv with Some vs' => lowerAll vs' r | None => None end end.
  (** weak_form_hmat_assembly_helper.cpp:114-154 (both spaces), potential_operator_hmat_assembly_helper.cpp:40-69 (trial space) *)
  Definition spaceVolumes (U : space K) (pU : list nat) : option (list R) :=
    match getLists U pU 0 (sp_count U) with
    | None => None
    | Some L => lowerAll (repeat vmax (sp_count U)) (flat_map (fun gu => map (fun y => let '(_, _, a) := y in (a, volume (fst gu))) (snd gu)) (dl_groups L))
    end.
  (** potential_operator_hmat_assembly_helper.cpp:57-60: one entry per point *)
  Definition pointVolumes (points : list point) : list R := repeat 1%R (length points).
  (** hmatrix_aca_compressor_impl.hpp:86-88, 123-125: |pivot| < zeroTol * m_testVolumes[row] * m_trialVolumes[column] *)
  Definition zeroTest (zeroTol : R) (testVolumes trialVolumes : list R) (row column : nat) (pivot : R) : res bool :=
    match nth_error testVolumes row, nth_error trialVolumes column with
    | Some t, Some u => Ok (if Rlt_dec (Rabs pivot) (zeroTol * t * u) then true else false)
    | _, _ => Undefined
    end.
End Volumes.
