(** Specification: the block matrices blocked operators stand for, read off their present definitions *)
From Coq Require Import List Arith Bool.
Import ListNotations.
From Verif Require Import Base ArrayModel AsmModel QuadModel MatAlg PyOpModel PyOpSpec PyBopModel PyBlockModel PyBlockSpec PyBbopModel.
Set Implicit Arguments.

Section Spec.
  Variable K : star_ring.
  Variable mass : space -> space -> mat K.
  Section Now.
    (** the objects as they are now *)
    Variable ns : list (bnode K).
    (** range, dual and domain spaces of an object *)
    Inductive hasSpaces : nat -> list (option space) -> list (option space) -> list (option space) -> Prop :=
    | SpBlk i ops r d c : nth_error ns i = Some (MBlk ops r d c) -> hasSpaces i r d c
    | SpSum i a b r d c : nth_error ns i = Some (MSum a b) -> hasSpaces a r d c -> hasSpaces i r d c
    | SpScaled i a x r d c : nth_error ns i = Some (MScaled a x) -> hasSpaces a r d c -> hasSpaces i r d c
    | SpProd i a b r d c r' d' c' : nth_error ns i = Some (MProd a b) -> hasSpaces a r d c -> hasSpaces b r' d' c' -> hasSpaces i r d c'.
    (** the map from dual to range spaces, row by row: inverse mass matrices on the diagonal, [n] columns *)
    Definition rangeEntry (r d : list (option space)) (i j : nat) : option (expr K) :=
      if i =? j then match nth i r None, nth i d None with Some s, Some t => Some (EInverse (mass s t)) | _, _ => None end else None.
    Definition rangeBlocks (r d : list (option space)) (n : nat) : list (list (option (expr K))) :=
      map (fun i => map (fun j => rangeEntry r d i j) (seq 0 n)) (seq 0 (length r)).
    (** weak and strong form *)
    Inductive weakIs : nat -> bexpr K -> Prop :=
    | WBlk i ops r d c : nth_error ns i = Some (MBlk ops r d c) -> weakIs i (XBlocks (map (map (option_map (@b_disc K))) ops))
    | WSum i a b x y : nth_error ns i = Some (MSum a b) -> weakIs a x -> weakIs b y -> weakIs i (XAdd x y)
    | WScaled i a c x : nth_error ns i = Some (MScaled a c) -> weakIs a x -> weakIs i (XScale c x)
    | WProd i a b x y : nth_error ns i = Some (MProd a b) -> weakIs a x -> strongIs b y -> weakIs i (XMul x y)
    with strongIs : nat -> bexpr K -> Prop :=
    | SAny i r d c x : hasSpaces i r d c -> weakIs i x -> strongIs i (XMul (XBlocks (rangeBlocks r d (length c))) x).
    (** the objects an object is made of *)
    Inductive usesIt : nat -> nat -> Prop :=
    | UsesSelf i : usesIt i i
    | UsesPart i a k : (exists j, nth_error ns i = Some (MSum a j) \/ nth_error ns i = Some (MSum j a) \/
                                  nth_error ns i = Some (MProd a j) \/ nth_error ns i = Some (MProd j a)) \/
                       (exists c, nth_error ns i = Some (MScaled a c)) -> usesIt a k -> usesIt i k.
  End Now.
  (** blocks are only assigned while neither the operator nor one built from it has been discretised *)
  Definition setEarly (cs : list (bcmd K)) : Prop :=
    forall cs1 cs2 i r c b, cs = cs1 ++ BSet i r c b :: cs2 ->
    forall p rc, In (BWeak rc p) cs1 \/ In (BStrong rc p) cs1 -> ~ usesIt (nodes (brun mass cs1)) p i.
End Spec.
Scheme weakIs_mut := Induction for weakIs Sort Prop with strongIs_mut := Induction for strongIs Sort Prop.
