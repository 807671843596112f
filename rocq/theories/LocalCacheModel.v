(** Model of the local assembler of integral operators with its cache of singular pairs.
    /repo/lib/fiber/default_local_assembler_for_integral_operators_on_surfaces_imp.hpp.
    Integrators are identified with their quadrature descriptors (getIntegrator, 609-673,
    keeps one integrator per descriptor) and shapesets with numbers (their addresses).
    tbb::parallel_for over disjoint result slots is run sequentially. *)
From Coq Require Import Reals ZArith List Bool.
Import ListNotations.
From Verif Require Import Base ArrayModel AsmModel SpaceModel QuadModel AccModel.
Set Implicit Arguments.

(** integrator, test shapeset, trial shapeset *)
Definition variant := (desc * nat * nat)%type.
Definition ttype_dec (a b : ttype) : {a = b} + {a <> b}.
Proof. decide equality. Defined.
Definition topology_dec (a b : topology) : {a = b} + {a <> b}.
Proof. decide equality; try apply Z.eq_dec; try apply Nat.eq_dec; apply ttype_dec. Defined.
Definition desc_dec (a b : desc) : {a = b} + {a <> b}.
Proof. decide equality; try apply Z.eq_dec; apply topology_dec. Defined.
Definition variant_dec (a b : variant) : {a = b} + {a <> b}.
Proof. decide equality; [apply Nat.eq_dec|]. decide equality; [apply Nat.eq_dec | apply desc_dec]. Defined.

(** std::set of (test, trial) pairs, ordered by trial index, then test index (hpp:131-160) *)
Definition pairLess (a b : nat * nat) : bool :=
  (snd a <? snd b)%nat || ((snd a =? snd b)%nat && (fst a <? fst b)%nat).
Fixpoint pairInsert (p : nat * nat) (l : list (nat * nat)) : list (nat * nat) :=
  match l with
  | [] => [p]
  | q :: r => if pairLess p q then p :: l else if pairLess q p then q :: pairInsert p r else l
  end.

Inductive callVariant := TEST_TRIAL | TRIAL_TEST.

Section Assembler.
  Variable K : star_ring.
  Variable ao : accuracy.
  Variables (g : sgeom) (g' : option sgeom).                 (* [None]: trial grid = test grid *)
  Variable vertexCount : nat.
  Variables (testSh trialSh : nat -> nat).
  (** integrator of a descriptor: whole local matrix (integrate, element pair version), and the part
      belonging to one local dof of the element B (integrate, call variant version) *)
  Variable integ : variant -> nat * nat -> mat K.
  Variable integDof : callVariant -> nat -> variant -> nat * nat -> res (mat K).
  (** order in which std::set<QuadVariant> enumerates (comparison of addresses) *)
  Variable setOrder : list variant -> list variant.

  (** 594-603 *)
  Definition select (e f : nat) (nominal : R) : res desc := quadratureDescriptor ao g g' e f nominal.
  Definition variantOf (e f : nat) (d : desc) : variant := (d, testSh e, trialSh f).

  (** 415-462 *)
  Fixpoint addCorners (e : nat) (cs : list Z) (adj : list (list nat)) : option (list (list nat)) :=
    match cs with
    | [] => Some adj
    | c :: r => if (0 <=? c)%Z then match zpush adj c e with Some a => addCorners e r a | None => None end
                else addCorners e r adj
    end.
  Fixpoint adjacency (e : nat) (elts : list (list Z)) (adj : list (list nat)) : option (list (list nat)) :=
    match elts with
    | [] => Some adj
    | cs :: r => match addCorners e cs adj with Some a => adjacency (S e) r a | None => None end
    end.
  Definition vertexPairs (es : list nat) : list (nat * nat) := flat_map (fun e1 => map (fun e2 => (e1, e2)) es) es.
  Definition findPairs : res (list (nat * nat)) :=
    match g' with
    | Some _ => Ok []
    | None =>
      match adjacency 0 (sg_corners g) (repeat [] vertexCount) with
      | None => Undefined
      | Some adj => Ok (fold_left (fun s p => pairInsert p s) (flat_map vertexPairs adj) [])
      end
    end.

  (** one cell of m_cache: test element index ([None]: INVALID_INDEX) and matrix ([None]: not yet written) *)
  Definition cell := (option nat * option (mat K))%type.
  (** extent(0) and the columns *)
  Record cache := Cache { ca_extent : nat; ca_cols : list (list cell) }.
  Definition noCache : cache := Cache 0 [].

  (** 484-498: longest run of equal trial indices *)
  Fixpoint maxRun (cur count best : nat) (l : list (nat * nat)) : nat :=
    match l with
    | [] => Nat.max best count
    | (_, f) :: r => if (f =? cur)%nat then maxRun cur (S count) best r else maxRun f 1 (Nat.max best count) r
    end.
  Definition maxNeighbours (l : list (nat * nat)) : nat :=
    match l with [] => 0 | (_, f) :: r => maxRun f 1 0 r end.
  (** 558-574: cache row of every pair *)
  Fixpoint rowsFrom (cur nb : nat) (l : list (nat * nat)) : list (nat * (nat * nat)) :=
    match l with
    | [] => []
    | (e, f) :: r => if (f =? cur)%nat then (nb, (e, f)) :: rowsFrom cur (S nb) r
                     else (0, (e, f)) :: rowsFrom f 1 r
    end.
  Definition cacheRows (l : list (nat * nat)) : list (nat * (nat * nat)) :=
    match l with [] => [] | (e, f) :: r => rowsFrom f 0 l end.
  Definition setCell (cols : list (list cell)) (nb f : nat) (c : cell) : option (list (list cell)) :=
    match nth_error cols f with
    | Some col => match upd col nb c with Some col' => upd cols f col' | None => None end
    | None => None
    end.
  (** 546-592: the pairs of one variant *)
  Fixpoint cacheVariant (v : variant) (items : list (variant * (nat * (nat * nat)))) (cols : list (list cell)) : res (list (list cell)) :=
    match items with
    | [] => Ok cols
    | (q, (nb, p)) :: r =>
      if variant_dec q v then
        match setCell cols nb (snd p) (Some (fst p), Some (integ v p)) with
        | Some cols' => cacheVariant v r cols'
        | None => Undefined
        end
      else cacheVariant v r cols
    end.
  Fixpoint cacheVariants (vs : list variant) items cols : res (list (list cell)) :=
    match vs with
    | [] => Ok cols
    | v :: r => bind (cacheVariant v items cols) (cacheVariants r items)
    end.
  Definition trialCount : nat := length (sg_corners (trialOf g g')).
  (** 470-592 *)
  Definition cacheLocalWeakForms (pairs : list (nat * nat)) : res cache :=
    match pairs with
    | [] => Ok noCache
    | _ =>
      let n := maxNeighbours pairs in
      bind (mapRes (fun p => bind (select (fst p) (snd p) (-1)) (fun d => Ok (variantOf (fst p) (snd p) d))) pairs) (fun qs =>
      bind (cacheVariants (setOrder qs) (combine qs (cacheRows pairs)) (repeat (repeat (None, None) n) trialCount)) (fun cols =>
      Ok (Cache n cols)))
    end.
  (** 100-128: the constructor *)
  Definition newAssembler (cacheSingular : bool) : res cache :=
    if cacheSingular then bind findPairs cacheLocalWeakForms else Ok noCache.

  (** 186-205, 297-306: search of the cache *)
  Fixpoint findCell (l : list cell) (e : nat) : option cell :=
    match l with
    | [] => None
    | c :: r => match fst c with Some i => if (i =? e)%nat then Some c else findCell r e | None => findCell r e end
    end.
  Definition findCached (c : cache) (e f : nat) : res (option (mat K)) :=
    if (ca_extent c =? 0)%nat then Ok None else
    match nth_error (ca_cols c) f with
    | None => Undefined
    | Some col => match findCell col e with
                  | None => Ok None
                  | Some (_, Some m) => Ok (Some m)
                  | Some (_, None) => Undefined
                  end
    end.

  (** result slots and the variants still to be computed ([None]: CACHED) *)
  Section Evaluate.
    Variable c : cache.
    Variable nominal : R.
    Variable fromCache : mat K -> res (mat K).                (* whole matrix, column or row *)
    Variable compute : variant -> nat * nat -> res (mat K).
    Definition stage1 (p : nat * nat) : res (option variant * option (mat K)) :=
      if (fst p <? length (sg_corners g))%nat && (snd p <? trialCount)%nat then
        bind (findCached c (fst p) (snd p)) (fun o =>
        match o with
        | Some m => bind (fromCache m) (fun r => Ok (None, Some r))
        | None => bind (select (fst p) (snd p) nominal) (fun d => Ok (Some (variantOf (fst p) (snd p) d), None))
        end)
      else Undefined.
    (** one batch *)
    Fixpoint integrateVariant (v : variant) (items : list (option variant * (nat * nat))) (results : list (option (mat K)))
      : res (list (option (mat K))) :=
      match items, results with
      | (q, p) :: is, r :: rs =>
        bind (match q with
              | Some w => if variant_dec w v then bind (compute v p) (fun m => Ok (Some m)) else Ok r
              | None => Ok r end) (fun r' =>
        bind (integrateVariant v is rs) (fun rs' => Ok (r' :: rs')))
      | _, _ => Ok results
      end.
    Fixpoint integrateAll (vs : list variant) items results : res (list (option (mat K))) :=
      match vs with
      | [] => Ok results
      | v :: r => bind (integrateVariant v items results) (integrateAll r items)
      end.
    Definition somes (l : list (option variant)) : list variant :=
      flat_map (fun o => match o with Some v => [v] | None => [] end) l.
    Definition evalCore (pairs : list (nat * nat)) : res (list (mat K)) :=
      bind (mapRes stage1 pairs) (fun rows =>
      bind (integrateAll (setOrder (somes (map fst rows))) (combine (map fst rows) pairs) (map snd rows)) written).
  End Evaluate.

  Definition colOf (m : mat K) (j : nat) : res (mat K) :=
    if (j <? m_cols m)%nat then Ok (Mat (m_rows m) 1 (fun i _ => m_at m i j)) else Undefined.
  Definition rowOf (m : mat K) (i : nat) : res (mat K) :=
    if (i <? m_rows m)%nat then Ok (Mat 1 (m_cols m) (fun _ j => m_at m i j)) else Undefined.
  (** 155-266; [dof = None]: ALL_DOFS *)
  Definition evaluateOne (c : cache) (cv : callVariant) (As : list nat) (B : nat) (dof : option nat) (nominal : R) : res (list (mat K)) :=
    let pairs := map (fun a => match cv with TEST_TRIAL => (a, B) | TRIAL_TEST => (B, a) end) As in
    match dof with
    | None => evalCore c nominal (fun m => Ok m) (fun v p => Ok (integ v p)) pairs
    | Some b => evalCore c nominal (fun m => match cv with TEST_TRIAL => colOf m b | TRIAL_TEST => rowOf m b end) (integDof cv b) pairs
    end.
  (** 272-360: the result is listed trial element by trial element *)
  Definition evaluatePairs (c : cache) (tests trials : list nat) (nominal : R) : res (list (mat K)) :=
    evalCore c nominal (fun m => Ok m) (fun v p => Ok (integ v p)) (flat_map (fun f => map (fun e => (e, f)) tests) trials).
  (** 367-381 *)
  Definition evaluateSingle (c : cache) (e f : nat) (nominal : R) : res (mat K) :=
    bind (evaluatePairs c [e] [f] nominal) (fun l => match l with m :: _ => Ok m | [] => Undefined end).
  (** 383-403 *)
  Definition evaluateList (c : cache) (tests trials : list nat) (nominal : R) : res (list (mat K)) :=
    if negb (length tests =? length trials)%nat then Throws
    else mapRes (fun p => evaluateSingle c (fst p) (snd p) nominal) (combine tests trials).
End Assembler.
