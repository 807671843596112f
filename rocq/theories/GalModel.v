(** Space handling of the operator factories:
    /repo/python/bempp/api/operators/boundary/_common.py, laplace.py, modified_helmholtz.py (hypersingular,
    multitrace_operator), /repo/python/bempp/api/space/projection.py.
    Operators are immutable except for caches (C56), so the objects the Python functions create are
    given as expressions [boe] of PyBopSpec; C119 shows that they can be created.
    Labels, symmetry flags, log messages and parameters are not modelled. *)
From Coq Require Import List Bool Arith.
Import ListNotations.
From Verif Require Import Base ArrayModel AsmModel MatAlg PyOpModel PyOpSpec PyBopModel PyBopSpec.
Set Implicit Arguments.
Unset Strict Implicit.

Section Factories.
Variable K : star_ring.
(** attributes of spaces, space.py: super_space, non_barycentric_space (when it exists), discontinuous_space *)
Record attributes := Attributes {
  superSpace : space -> space; nonBarycentric : space -> space; discontinuous : space -> space;
  isBarycentric : space -> bool; hasNonBarycentric : space -> bool }.
Variable at_ : attributes.
(** what an integral or local operator assembles for a domain and a dual space *)
Definition assembler := space -> space -> expr K.

(** projection.py 29-48, all spaces given *)
Definition projectOperator (op : boe K) (d r t : space) : boe K :=
  if speq (dom op) d && speq (dual op) t
  then (if speq (ran op) r then op else OReint op d r t)
  else OProj op d r t.
(** _common.py 16-23 *)
Definition checkNonBarycentric (d t : space) : bool :=
  if negb (isBarycentric at_ d) || negb (isBarycentric at_ t) then false
  else hasNonBarycentric at_ d && hasNonBarycentric at_ t.
(** _common.py 27-66 (dense: the assembly type is 'dense') and 69-103 (wave operators, where dense is
    not looked at: call with false).  fuel bounds the recursion depth *)
Fixpoint getOperator (fuel : nat) (dense useProjection : bool) (op : assembler) (d r t : space) : option (boe K) :=
  match fuel with
  | 0 => None
  | S f =>
    let useProjection' := if dense then false else useProjection in
    if checkNonBarycentric d t then
      option_map (fun o => OReint o d r t) (getOperator f dense useProjection' op (nonBarycentric at_ d) r (nonBarycentric at_ t))
    else if negb useProjection' then Some (OElem d r t (op d t))
    else Some (projectOperator (OElem (superSpace at_ d) r (superSpace at_ t) (op (superSpace at_ d) (superSpace at_ t))) d r t)
  end.

(** sparse.py operator_from_functors(d, w, w, value, trial functor, single_component(0, c)) *)
Inductive slpChoice := NoSlp | MakeSlp | UseSlp (op : boe K).
(** laplace.py 287-307, modified_helmholtz.py: the sum over the components; wave2 = None for Laplace,
    Some (wave_number**2) for (modified) Helmholtz *)
Definition hypersingularFromSlp (curl normal : nat -> assembler) (wave2 : option K) (slp : boe K) (d r t : space) : boe K :=
  let step acc c :=
    let curlOp := OElem d (dom slp) (dom slp) (curl c d (dom slp)) in
    let acc1 := OSum acc (OProd (ODual curlOp slp) curlOp) in
    match wave2 with
    | None => acc1
    | Some k2 =>
      let normalOp := OElem d (dom slp) (dom slp) (normal c d (dom slp)) in
      OSum acc1 (OProd (OScaled (ODual normalOp slp) k2) normalOp)
    end in
  OReint (fold_left step [0; 1; 2] (OZero d (ran slp) t)) d r t.
(** laplace.py 209-307, modified_helmholtz.py hypersingular *)
Definition hypersingular (dense : bool) (hyp slp : assembler) (curl normal : nat -> assembler) (wave2 : option K)
    (choice : slpChoice) (useProjection : bool) (d r t : space) : option (boe K) :=
  let choice' := if speq d t then choice else NoSlp in
  match choice' with
  | NoSlp => getOperator 2 dense useProjection hyp d r t
  | MakeSlp => option_map (fun s => hypersingularFromSlp curl normal wave2 s d r t)
                 (getOperator 2 dense true slp (discontinuous at_ d) r (discontinuous at_ d))
  | UseSlp s => Some (hypersingularFromSlp curl normal wave2 s d r t)
  end.

(** what a multitrace operator is made of *)
Record physics := Physics { p_slp : assembler; p_dlp : assembler; p_hyp : assembler; p_curl : nat -> assembler; p_normal : nat -> assembler; p_wave2 : option K; p_dense : bool }.
Variable ph : physics.
Definition slpOp d r t := getOperator 2 (p_dense ph) true (p_slp ph) d r t.
Definition dlpOp d r t := getOperator 2 (p_dense ph) true (p_dlp ph) d r t.
Definition hypOp choice d r t := hypersingular (p_dense ph) (p_hyp ph) (p_slp ph) (p_curl ph) (p_normal ph) (p_wave2 ph) choice true d r t.
Definition negate (a : boe K) : boe K := OScaled a (opp one).
Definition oapp (x : option (boe K)) (f : boe K -> option (list (boe K))) : option (list (boe K)) := match x with Some a => f a | None => None end.
(** the blocks [0,0], [0,1], [1,0], [1,1] *)
(** _common.py 229-262: lin = function_space(grid, "P", 1), disc = function_space(grid, "DP", 1) *)
Definition multitraceLinear (lin disc : space) : option (list (boe K)) :=
  oapp (slpOp disc disc disc) (fun slpDisc =>
  let slp := projectOperator slpDisc lin lin lin in
  oapp (dlpOp lin lin lin) (fun dlp =>
  let adlp := OTrans dlp lin in
  oapp (hypOp (UseSlp slpDisc) lin lin lin) (fun hyp =>
  Some [negate dlp; slp; hyp; adlp]))).
(** _common.py 265-310: dual = "DUAL", lin = "B-P", disc = "DP" 1 and base = "DP" 1 or (Laplace) "DP" 0 on the barycentric grid *)
Definition multitraceDual (dualSp lin disc base : space) : option (list (boe K)) :=
  oapp (slpOp base base base) (fun slp =>
  oapp (dlpOp disc disc disc) (fun dlpDisc =>
  let dlp := projectOperator dlpDisc lin lin dualSp in
  let adlp := projectOperator (OTrans dlpDisc dualSp) dualSp dualSp lin in
  oapp (hypOp (UseSlp slp) lin dualSp lin) (fun hyp =>
  Some [negate dlp; projectOperator slp dualSp lin dualSp; hyp; adlp]))).
(** _common.py 163-215: from a source to another target grid *)
Definition multitraceLinearTarget (src tgt : space) : option (list (boe K)) :=
  oapp (slpOp src tgt tgt) (fun slp =>
  oapp (dlpOp src tgt tgt) (fun dlp =>
  oapp (dlpOp tgt src src) (fun dlpBack =>
  oapp (hypOp NoSlp src tgt tgt) (fun hyp =>
  Some [negate dlp; slp; hyp; OTrans dlpBack tgt])))).
Definition multitraceDualTarget (srcDual srcLin tgtDual tgtLin : space) : option (list (boe K)) :=
  oapp (slpOp srcDual tgtLin tgtDual) (fun slp =>
  oapp (dlpOp srcLin tgtLin tgtDual) (fun dlp =>
  oapp (dlpOp tgtLin srcLin srcDual) (fun dlpBack =>
  oapp (hypOp NoSlp srcLin tgtDual tgtLin) (fun hyp =>
  Some [negate dlp; slp; hyp; OTrans dlpBack tgtDual])))).
(** _common.py 106-160 slp_and_hyp_impl (base_slp = None): linear spaces and dual spaces *)
Definition slpAndHypLinear (lin disc : space) : option (list (boe K)) :=
  oapp (slpOp disc disc disc) (fun slpDisc =>
  oapp (hypOp (UseSlp slpDisc) lin lin lin) (fun hyp => Some [projectOperator slpDisc lin lin lin; hyp])).
Definition slpAndHypDual (dualSp lin base : space) : option (list (boe K)) :=
  oapp (slpOp base base base) (fun slp =>
  oapp (hypOp (UseSlp slp) lin dualSp lin) (fun hyp => Some [projectOperator slp dualSp lin dualSp; hyp])).
End Factories.
Arguments NoSlp {K}. Arguments MakeSlp {K}.
