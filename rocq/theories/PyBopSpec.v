(** Specification: boundary operator expressions and the discretisations they stand for *)
From Coq Require Import List Arith Bool.
Import ListNotations.
From Verif Require Import Base ArrayModel AsmModel MatAlg PyOpModel PyOpSpec PyBopModel.
Set Implicit Arguments.

Section Spec.
  Variable K : star_ring.
  (** weak form of the identity operator: trial space, test space *)
  Variable mass : space -> space -> mat K.
  Inductive boe :=
  | OElem (d r t : space) (e : expr K) | OZero (d r t : space)
  | OSum (a b : boe) | OScaled (a : boe) (c : K) | OProd (a b : boe) | ODual (a b : boe)
  | OTrans (a : boe) (r : space) | OAdj (a : boe) (r : space) | OReint (a : boe) (d r t : space) | OProj (a : boe) (d r t : space).
  (** (domain, dual to range) *)
  Fixpoint ends (e : boe) : space * space :=
    match e with
    | OElem d _ t _ | OZero d _ t | OReint _ d _ t | OProj _ d _ t => (d, t)
    | OSum a _ | OScaled a _ => ends a
    | OProd a b => (fst (ends b), snd (ends a))
    | ODual a b => (fst (ends b), fst (ends a))
    | OTrans a _ | OAdj a _ => (snd (ends a), fst (ends a))
    end.
  Definition dom (e : boe) : space := fst (ends e).
  Definition dual (e : boe) : space := snd (ends e).
  Fixpoint ran (e : boe) : space :=
    match e with
    | OElem _ r _ _ | OZero _ r _ | OReint _ _ r _ | OProj _ _ r _ | OTrans _ r | OAdj _ r => r
    | OSum a _ | OScaled a _ | OProd a _ => ran a
    | ODual _ b => ran b
    end.
  (** weak form of an operator as matrix expression *)
  Fixpoint weakE (e : boe) : expr K :=
    let strongE b := EMul (EInverse (mass (ran b) (dual b))) (weakE b) in
    match e with
    | OElem _ _ _ m => m
    | OZero d _ t => EZero (s_dofs t) (s_dofs d)
    | OSum a b => EAdd (weakE a) (weakE b)
    | OScaled a c => EScale c (weakE a)
    | OProd a b => EMul (weakE a) (strongE b)
    | ODual a b => EMul (EAdj (strongE a)) (weakE b)
    | OTrans a _ => ETrans (weakE a)
    | OAdj a _ => EAdj (weakE a)
    | OReint a _ _ _ => weakE a
    | OProj a d _ t =>
        let w := if speq t (dual a) then weakE a
                 else EMul (EMul (ESparse (mass (dual a) t)) (EInverse (mass (dual a) (dual a)))) (weakE a) in
        if speq d (dom a) then w else EMul w (EMul (EInverse (mass (dom a) (dom a))) (ESparse (mass d (dom a))))
    end.
  (** strong form: followed by the map from the dual to the range space *)
  Definition strongE (e : boe) : expr K := EMul (EInverse (mass (ran e) (dual e))) (weakE e).

  (** the operators a program has created, as expressions *)
  Definition resolve (es : list boe) (n : node K) : option boe :=
    let at1 i f := match nth_error es i with Some e => f e | None => None end in
    match n with
    | NElem d r t e => Some (OElem d r t e)
    | NZero d r t => Some (OZero d r t)
    | NSum i j => at1 i (fun a => at1 j (fun b =>
        if (s_dofs (dom a) =? s_dofs (dom b)) && (s_dofs (ran a) =? s_dofs (ran b)) && (s_dofs (dual a) =? s_dofs (dual b)) then Some (OSum a b) else None))
    | NScaled i c => at1 i (fun a => Some (OScaled a c))
    | NProd i j => at1 i (fun a => at1 j (fun b => if s_dofs (ran b) =? s_dofs (dom a) then Some (OProd a b) else None))
    | NDual i j => at1 i (fun a => at1 j (fun b => if s_dofs (dual b) =? s_dofs (ran a) then Some (ODual a b) else None))
    | NTrans i r => at1 i (fun a => Some (OTrans a r))
    | NAdj i r => at1 i (fun a => Some (OAdj a r))
    | NReint i d r t => at1 i (fun a => Some (OReint a d r t))
    | NProj i d r t => at1 i (fun a => Some (OProj a d r t))
    end.
  Definition specStep (es : list boe) (c : cmd K) : list boe :=
    match c with CNew n => match resolve es n with Some e => es ++ [e] | None => es end | _ => es end.
  Definition objects (cs : list (cmd K)) : list boe := fold_left specStep cs [].

  Variable pinv : mat K -> mat K.
  (** numbers of degrees of freedom fit *)
  Fixpoint sized (e : boe) : Prop :=
    match e with
    | OElem d _ t e => exists m, value pinv e = Some m /\ m_rows m = s_dofs t /\ m_cols m = s_dofs d
    | OZero _ _ _ => True
    | OSum a b => sized a /\ sized b /\ s_dofs (dom a) = s_dofs (dom b) /\ s_dofs (dual a) = s_dofs (dual b)
    | OScaled a _ | OTrans a _ | OAdj a _ => sized a
    | OProd a b => sized a /\ sized b /\ s_dofs (ran b) = s_dofs (dom a)
    | ODual a b => sized a /\ sized b /\ s_dofs (dual b) = s_dofs (ran a)
    | OReint a d _ t => sized a /\ s_dofs d = s_dofs (dom a) /\ s_dofs t = s_dofs (dual a)
    | OProj a _ _ _ => sized a
    end.
  (** the matrices the weak and the strong form should be *)
  Fixpoint weakM (e : boe) : mat K :=
    let strongM b := mMul (pinv (mass (ran b) (dual b))) (weakM b) in
    match e with
    | OElem _ _ _ e => match value pinv e with Some m => m | None => zeroMat 0 0 end
    | OZero d _ t => zeroMat (s_dofs t) (s_dofs d)
    | OSum a b => mAdd (weakM a) (weakM b)
    | OScaled a c => mScale c (weakM a)
    | OProd a b => mMul (weakM a) (strongM b)
    | ODual a b => mMul (mH (strongM a)) (weakM b)
    | OTrans a _ => mT (weakM a)
    | OAdj a _ => mH (weakM a)
    | OReint a _ _ _ => weakM a
    | OProj a d _ t =>
        let w := if speq t (dual a) then weakM a else mMul (mMul (mass (dual a) t) (pinv (mass (dual a) (dual a)))) (weakM a) in
        if speq d (dom a) then w else mMul w (mMul (pinv (mass (dom a) (dom a))) (mass d (dom a)))
    end.
  Definition strongM (e : boe) : mat K := mMul (pinv (mass (ran e) (dual e))) (weakM e).
  Definition massSized : Prop := forall s t, m_rows (mass s t) = s_dofs t /\ m_cols (mass s t) = s_dofs s.
End Spec.
Arguments OElem {K}. Arguments OZero {K}. Arguments OSum {K}. Arguments OScaled {K}. Arguments OProd {K}. Arguments ODual {K}.
Arguments OTrans {K}. Arguments OAdj {K}. Arguments OReint {K}. Arguments OProj {K}.
