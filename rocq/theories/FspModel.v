(** Model of the function space factory /repo/python/bempp/api/space/space.py (233-872) and of the checks of the
    factory it calls, /repo/cython/bempp/core/space/space.pyx 214-433.  Grids are objects compared by identity
    (grid.py has no __eq__), the barycentric refinement is made once per grid (grid.py 85-89); the grids are not
    refined between the calls (staleness after refinement is a separate matter).  Exceptions are None.  Evaluation functors are not modelled. *)
From Coq Require Import List ZArith Bool.
Import ListNotations.
Open Scope Z_scope.

Inductive kind := P | DP | RT | NC | SNC | RWG | BP | BDP | BRT | BNC | BSNC | BRWG | DUAL | BC | RBC | Unknown.
Inductive grid := Original (n : nat) | Refined (g : grid).
(** domains, order of the arguments of function_space *)
Record args := Args { a_grid : grid; a_kind : kind; a_order : Z; a_domains : option (list Z); a_closed : bool; a_strict : bool; a_ref : bool; a_elem : bool }.

(** the arguments of the C++ constructors: kind and order, domains with closed (None: the whole grid), strictly on segment, dof mode *)
Record core := Core { c_grid : grid; c_kind : kind; c_order : Z; c_segment : option (list Z * bool); c_strict : bool; c_mode : Z }.
(** space.pyx 280-288 *)
Definition dofMode (ref elem : bool) : Z := (if elem then 2 else 0) + (if ref then 4 else 0).
(** space.pyx 290-431 *)
Definition coreSpace (g : grid) (k : kind) (order : Z) (domains : option (list Z)) (closed strict ref elem : bool) : option core :=
  let mode := dofMode ref elem in
  if mode <? 2 then None else
  let withSegment strict' mode' := match domains with
    | None => Some (Core g k order None false 0)
    | Some d => Some (Core g k order (Some (d, closed)) strict' mode') end in
  let wholeGrid := match domains with None => Some (Core g k order None false 0) | Some _ => None end in
  match k with
  | P => if (1 <=? order) && (order <=? 10) then withSegment strict 0 else None
  | DP => if (0 <=? order) && (order <=? 10) then withSegment false (if order =? 0 then 0 else mode) else None
  | RT | NC | SNC | RWG => if order =? 0 then withSegment false 0 else None
  | BP | BDP => if order =? 1 then wholeGrid else None
  | DUAL | BRT | BNC | BSNC | BRWG | BC | RBC => if order =? 0 then wholeGrid else None
  | Unknown => None
  end.

(** space objects; attributes refer to the object itself, to another space, or are None or absent *)
Inductive pspace := PSpace (s_core : core) (s_order : Z) (s_non : ref) (s_disc : ref) (s_super : ref) (s_hdiv : ref) (s_bary : bool) (s_grid : grid) (s_key : option args)
with ref := Self | Other (s : pspace) | Nothing.
Definition coreOf s := match s with PSpace c _ _ _ _ _ _ _ _ => c end.
Definition orderOf s := match s with PSpace _ o _ _ _ _ _ _ _ => o end.
Definition isBary s := match s with PSpace _ _ _ _ _ _ b _ _ => b end.
Definition gridOf s := match s with PSpace _ _ _ _ _ _ _ g _ => g end.
Definition keyOf s := match s with PSpace _ _ _ _ _ _ _ _ k => k end.
Definition deref (s : pspace) (r : ref) : option pspace := match r with Self => Some s | Other x => Some x | Nothing => None end.
Definition nonBarySpace s := match s with PSpace _ _ r _ _ _ _ _ _ => deref s r end.
Definition discSpace s := match s with PSpace _ _ _ r _ _ _ _ _ => deref s r end.
Definition superSpace s := match s with PSpace _ _ _ _ r _ _ _ _ => deref s r end.
Definition hdivSpace s := match s with PSpace _ _ _ _ _ r _ _ _ => deref s r end.
(** 197-199 has_non_barycentric_space: true in all classes but those whose non_barycentric_space is None *)
Definition hasNonBary s := match nonBarySpace s with Some _ => true | None => false end.

Definition obind {A B} (x : option A) (f : A -> option B) : option B := match x with Some a => f a | None => None end.
Definition defaults (g : grid) (k : kind) (o : Z) : args := Args g k o None true false true false.
Definition withDomains (g : grid) (k : kind) (o : Z) (d : option (list Z)) (closed : bool) : args := Args g k o d closed false true false.
(** 329-347, 404-421, ...: the discontinuous space on the same part of the grid *)
Definition discArgs (g : grid) (o : Z) (d : option (list Z)) (closed strict : bool) : args :=
  if closed then Args g DP o d closed false true strict else Args g DP o d closed false false true.

Section Constructors.
(** function_space, called from the constructors *)
Variable fs : args -> option pspace.
Definition call (a : args) : option ref := option_map Other (fs a).
(** 233-267 *)
Definition mkDP (a : args) : option pspace :=
  obind (coreSpace (a_grid a) DP (a_order a) (a_domains a) (a_closed a) false (a_ref a) (a_elem a)) (fun c =>
  Some (PSpace c (a_order a) Self Self Self Nothing false (a_grid a) (Some a))).
(** 294-352 *)
Definition mkP (a : args) : option pspace :=
  obind (coreSpace (a_grid a) P (a_order a) (a_domains a) (a_closed a) (a_strict a) true (a_elem a)) (fun c =>
  obind (call (discArgs (a_grid a) (a_order a) (a_domains a) (a_closed a) (a_strict a))) (fun disc =>
  Some (PSpace c (a_order a) Self disc disc Nothing false (a_grid a) (Some a)))).
(** 270-291, 355-376 *)
Definition mkBaryPoly (k k0 : kind) (a : args) : option pspace :=
  let g := a_grid a in
  obind (coreSpace g k (a_order a) None true false true false) (fun c =>
  obind (call (defaults g k0 (a_order a))) (fun non =>
  obind (call (defaults (Refined g) DP (a_order a))) (fun disc =>
  Some (PSpace c (a_order a) non disc disc Nothing true (Refined g) (Some a))))).
(** 379-399 *)
Definition mkDual (a : args) : option pspace :=
  let g := a_grid a in
  obind (coreSpace g DUAL 0 None true false true false) (fun c =>
  obind (call (defaults (Refined g) DP 0)) (fun disc =>
  Some (PSpace c 0 Nothing disc disc Nothing true (Refined g) (Some a)))).
(** 402-558: RT, NC, RWG, SNC; hdiv = None for the divergence-conforming ones *)
Definition mkVector (k : kind) (hdiv : option kind) (a : args) : option pspace :=
  let g := a_grid a in
  obind (coreSpace g k 0 (a_domains a) (a_closed a) false true false) (fun c =>
  obind (call (discArgs g 1 (a_domains a) (a_closed a) false)) (fun disc =>
  obind (match hdiv with None => Some Nothing | Some h => call (withDomains g h 0 (a_domains a) (a_closed a)) end) (fun h =>
  Some (PSpace c 0 Self disc Self h false g (Some a))))).
(** 561-651: B-RT, B-NC, B-RWG, B-SNC *)
Definition mkBaryVector (k k0 : kind) (hdiv : option kind) (a : args) : option pspace :=
  let g := a_grid a in
  obind (coreSpace g k 0 None true false true false) (fun c =>
  obind (call (defaults g k0 0)) (fun non =>
  obind (call (defaults (Refined g) DP 1)) (fun disc =>
  obind (call (defaults (Refined g) k0 0)) (fun sup =>
  obind (match hdiv with None => Some Nothing | Some h => call (defaults g h 0) end) (fun h =>
  Some (PSpace c 0 non disc sup h true (Refined g) (Some a))))))).
(** 654-673; the key is None when called from 676-697 *)
Definition mkBC (g : grid) (key : option args) : option pspace :=
  obind (coreSpace g BC 0 None true false true false) (fun c =>
  obind (call (defaults (Refined g) DP 1)) (fun disc =>
  obind (call (defaults (Refined g) RWG 0)) (fun sup =>
  Some (PSpace c 0 Nothing disc sup Nothing true (Refined g) key)))).
(** 676-697 *)
Definition mkRBC (a : args) : option pspace :=
  let g := a_grid a in
  obind (coreSpace g RBC 0 None true false true false) (fun c =>
  obind (call (defaults (Refined g) DP 1)) (fun disc =>
  obind (call (defaults (Refined g) SNC 0)) (fun sup =>
  obind (mkBC g None) (fun h =>
  Some (PSpace c 0 Nothing disc sup (Other h) true (Refined g) (Some a)))))).
(** 786-872 *)
Definition dispatch (a : args) : option pspace :=
  let zeroOrder x := if 0 <? a_order a then None else x in
  match a_kind a with
  | DP => mkDP a
  | BDP => mkBaryPoly BDP DP a
  | P => mkP a
  | BP => mkBaryPoly BP P a
  | DUAL => zeroOrder (mkDual a)
  | RT => zeroOrder (mkVector RT None a)
  | NC => zeroOrder (mkVector NC (Some RT) a)
  | SNC => zeroOrder (mkVector SNC (Some RWG) a)
  | RWG => zeroOrder (mkVector RWG None a)
  | BRT => zeroOrder (mkBaryVector BRT RT None a)
  | BNC => zeroOrder (mkBaryVector BNC NC (Some BRT) a)
  | BSNC => zeroOrder (mkBaryVector BSNC SNC (Some BRWG) a)
  | BRWG => zeroOrder (mkBaryVector BRWG RWG None a)
  | BC => zeroOrder (mkBC (a_grid a) (Some a))
  | RBC => zeroOrder (mkRBC a)
  | Unknown => None
  end.
End Constructors.
(** fuel bounds the depth of nested calls; 5 is enough for all calls *)
Fixpoint functionSpaceWith (fuel : nat) (a : args) : option pspace :=
  match fuel with O => None | S f => dispatch (functionSpaceWith f) a end.
Definition functionSpace := functionSpaceWith 5.

(** the key, 786-795: domains are sorted *)
Fixpoint insert (x : Z) (l : list Z) : list Z := match l with [] => [x] | y :: r => if x <=? y then x :: l else y :: insert x r end.
Definition sorted (l : list Z) : list Z := fold_right insert [] l.
Fixpoint listEq (a b : list Z) : bool := match a, b with [] , [] => true | x :: a', y :: b' => (x =? y) && listEq a' b' | _, _ => false end.
Fixpoint gridEq (a b : grid) : bool := match a, b with Original n, Original m => Nat.eqb n m | Refined a', Refined b' => gridEq a' b' | _, _ => false end.
Definition kindEq (a b : kind) : bool :=
  match a, b with
  | P, P | DP, DP | RT, RT | NC, NC | SNC, SNC | RWG, RWG | BP, BP | BDP, BDP | BRT, BRT | BNC, BNC | BSNC, BSNC | BRWG, BRWG | DUAL, DUAL | BC, BC | RBC, RBC | Unknown, Unknown => true
  | _, _ => false end.
Definition keyEq (a b : args) : bool :=
  gridEq (a_grid a) (a_grid b) && kindEq (a_kind a) (a_kind b) && (a_order a =? a_order b) &&
  match a_domains a, a_domains b with None, None => true | Some x, Some y => listEq (sorted x) (sorted y) | _, _ => false end &&
  Bool.eqb (a_closed a) (a_closed b) && Bool.eqb (a_strict a) (a_strict b) && Bool.eqb (a_ref a) (a_ref b) && Bool.eqb (a_elem a) (a_elem b).
(** 57-58 *)
Definition spaceEq (s t : pspace) : bool :=
  match keyOf s, keyOf t with Some a, Some b => keyEq a b | None, None => true | _, _ => false end.
