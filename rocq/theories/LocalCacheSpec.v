(** Specification for the local matrix cache *)
From Coq Require Import Reals ZArith List Bool.
Import ListNotations.
From Verif Require Import Base ArrayModel AsmModel AccModel LocalCacheModel.
Set Implicit Arguments.

(** a std::set holds each of the inserted values once *)
Definition enumerates (setOrder : list variant -> list variant) : Prop :=
  forall l, NoDup (setOrder l) /\ forall v, In v (setOrder l) <-> In v l.
(** integrating for one local dof of element B gives that column (row) of the whole local matrix *)
Definition restricts (K : star_ring) (integ : variant -> nat * nat -> mat K) (integDof : callVariant -> nat -> variant -> nat * nat -> res (mat K)) : Prop :=
  forall b v p, integDof TEST_TRIAL b v p = colOf (integ v p) b /\ integDof TRIAL_TEST b v p = rowOf (integ v p) b.
(** elements [e] and [f] of the grid have a vertex in common *)
Definition touching (g : sgeom) (e f : nat) : Prop :=
  exists ce cf v, nth_error (sg_corners g) e = Some ce /\ nth_error (sg_corners g) f = Some cf /\ In v ce /\ In v cf.
(** what the user sees of the four evaluation functions *)
Inductive request :=
| AskOne (cv : callVariant) (elementsA : list nat) (elementB : nat) (dof : option nat)
| AskPairs (tests trials : list nat)
| AskSingle (test trial : nat)
| AskList (tests trials : list nat).
Section Answer.
  Variable K : star_ring.
  Variables (ao : accuracy) (g : sgeom) (g' : option sgeom) (testSh trialSh : nat -> nat).
  Variable integ : variant -> nat * nat -> mat K.
  Variable integDof : callVariant -> nat -> variant -> nat * nat -> res (mat K).
  Variable setOrder : list variant -> list variant.
  Definition answer (c : cache K) (nominal : R) (q : request) : res (list (mat K)) :=
    match q with
    | AskOne cv As B dof => evaluateOne ao g g' testSh trialSh integ integDof setOrder c cv As B dof nominal
    | AskPairs ts us => evaluatePairs ao g g' testSh trialSh integ setOrder c ts us nominal
    | AskSingle e f => bind (evaluateSingle ao g g' testSh trialSh integ setOrder c e f nominal) (fun m => Ok [m])
    | AskList ts us => evaluateList ao g g' testSh trialSh integ setOrder c ts us nominal
    end.
End Answer.
(** what is asked for, pair by pair: a whole local matrix, a column or a row of it *)
Inductive extract := Whole | Column (b : nat) | Row (b : nat).
Definition wanted (q : request) : list (nat * nat * extract) :=
  match q with
  | AskOne TEST_TRIAL As B dof => map (fun a => (a, B, match dof with None => Whole | Some b => Column b end)) As
  | AskOne TRIAL_TEST As B dof => map (fun a => (B, a, match dof with None => Whole | Some b => Row b end)) As
  | AskPairs ts us => flat_map (fun f => map (fun e => (e, f, Whole)) ts) us
  | AskSingle e f => [(e, f, Whole)]
  | AskList ts us => map (fun p => (fst p, snd p, Whole)) (combine ts us)
  end.
Definition wellFormed (q : request) : Prop := match q with AskList ts us => length ts = length us | _ => True end.
Section Expected.
  Variable K : star_ring.
  Variables (ao : accuracy) (g : sgeom) (g' : option sgeom) (testSh trialSh : nat -> nat).
  Variable integ : variant -> nat * nat -> mat K.
  (** the integral over elements e and f with their own shapesets and the quadrature orders of this pair *)
  Definition isLocal (nominal : R) (w : nat * nat * extract) (m : mat K) : Prop :=
    let '(e, f, x) := w in
    e < length (sg_corners g) /\ f < length (sg_corners (match g' with Some h => h | None => g end)) /\
    exists d, quadratureDescriptor ao g g' e f nominal = Ok d /\
      let M := integ (d, testSh e, trialSh f) (e, f) in
      match x with
      | Whole => m = M
      | Column b => b < m_cols M /\ m = Mat (m_rows M) 1 (fun i _ => m_at M i b)
      | Row b => b < m_rows M /\ m = Mat 1 (m_cols M) (fun _ j => m_at M b j)
      end.
End Expected.
