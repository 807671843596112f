(** Model of the entry accessors handed to the H-matrix compressor.
    /repo/lib/assembly/weak_form_hmat_assembly_helper.cpp:159-322,
    potential_operator_hmat_assembly_helper.cpp:87-190. *)
From Verif Require Import Base AsmModel DofListModel.
Set Implicit Arguments.

(** a dense term: its multiplier and its local integrals [A e f i j] for test element e, trial
    element f and local dofs i, j (evaluated with the block's minimum distance) *)
Definition term (K : star_ring) : Type := (K * (nat -> nat -> nat -> nat -> K))%type.
Definition entryValue {K : star_ring} (t : term K) (e f i j : nat) (w v : K) : K :=
  mul (mul (mul (fst t) (conj w)) v) (snd t e f i j).

(** 205-232: one column *)
Definition columnUpdates {K : star_ring} (terms : list (term K)) (LT LU : dofLists K) : list (nat * nat * K) :=
  flat_map (fun gu => flat_map (fun y => let '(j, v, _) := y in
    flat_map (fun t =>
      flat_map (fun gt => map (fun x => let '(i, w, row) := x in
        (row, 0, entryValue t (fst gt) (fst gu) i j w v)) (snd gt)) (dl_groups LT)) terms) (snd gu)) (dl_groups LU).
(** 233-261: one row *)
Definition rowUpdates {K : star_ring} (terms : list (term K)) (LT LU : dofLists K) : list (nat * nat * K) :=
  flat_map (fun gt => flat_map (fun x => let '(i, w, _) := x in
    flat_map (fun t =>
      flat_map (fun gu => map (fun y => let '(j, v, col) := y in
        (0, col, entryValue t (fst gt) (fst gu) i j w v)) (snd gu)) (dl_groups LU)) terms) (snd gt)) (dl_groups LT).
(** 262-286: at most 32 x 32 *)
Definition fatUpdates {K : star_ring} (terms : list (term K)) (LT LU : dofLists K) : list (nat * nat * K) :=
  flat_map (fun t =>
    flat_map (fun gu => flat_map (fun y => let '(j, v, col) := y in
      flat_map (fun gt => map (fun x => let '(i, w, row) := x in
        (row, col, entryValue t (fst gt) (fst gu) i j w v)) (snd gt)) (dl_groups LT)) (snd gu)) (dl_groups LU)) terms.
(** 287-313: everything else *)
Definition otherUpdates {K : star_ring} (terms : list (term K)) (LT LU : dofLists K) : list (nat * nat * K) :=
  flat_map (fun gt => flat_map (fun x => let '(i, w, row) := x in
    flat_map (fun t =>
      flat_map (fun gu => map (fun y => let '(j, v, col) := y in
        (row, col, entryValue t (fst gt) (fst gu) i j w v)) (snd gu)) (dl_groups LU)) terms) (snd gt)) (dl_groups LT).
(** 159-322.  [sparse]: number of sparse terms; addBlock of every discrete operator class throws.
    [None]: exception or undefined behaviour. *)
Definition computeMatrixBlock {K : star_ring} (T U : space K) (pT pU : list nat) (terms : list (term K)) (sparse : nat)
  (r0 r1 c0 c1 : nat) : option (mat K) :=
  if (r1 <? r0) || (c1 <? c0) then None else
  let nr := r1 - r0 in let nc := c1 - c0 in
  match getLists T pT r0 nr, getLists U pU c0 nc with
  | Some LT, Some LU =>
    let us := if nc =? 1 then columnUpdates terms LT LU
              else if nr =? 1 then rowUpdates terms LT LU
              else if (nr <=? 32) && (nc <=? 32) then fatUpdates terms LT LU
              else otherUpdates terms LT LU in
    match addAll (zeroMat nr nc) us with
    | Some m => if sparse =? 0 then Some m else None
    | None => None
    end
  | _, _ => None
  end.

(** ---- potential operators: [P p f k j] the local contribution at point p, component k ---- *)
(** 124-147 *)
Definition pColumn {K : star_ring} (P : nat -> nat -> nat -> nat -> K) (LC : compLists) (LU : dofLists K) : list (nat * nat * K) :=
  flat_map (fun gu => flat_map (fun y => let '(j, v, _) := y in
    flat_map (fun gp => map (fun x => let '(k, row) := x in
      (row, 0, mul v (P (fst gp) (fst gu) k j))) (snd gp)) LC) (snd gu)) (dl_groups LU).
(** 148-166: uses only the first point and component *)
Definition pRow {K : star_ring} (P : nat -> nat -> nat -> nat -> K) (LC : compLists) (LU : dofLists K) : option (list (nat * nat * K)) :=
  match LC with
  | (p, (k, _) :: _) :: _ =>
    Some (flat_map (fun gu => map (fun y => let '(j, v, col) := y in (0, col, mul v (P p (fst gu) k j))) (snd gu)) (dl_groups LU))
  | _ => None
  end.
(** 167-189 *)
Definition pFat {K : star_ring} (P : nat -> nat -> nat -> nat -> K) (LC : compLists) (LU : dofLists K) : list (nat * nat * K) :=
  flat_map (fun gu => flat_map (fun y => let '(j, v, col) := y in
    flat_map (fun gp => map (fun x => let '(k, row) := x in
      (row, col, mul v (P (fst gp) (fst gu) k j))) (snd gp)) LC) (snd gu)) (dl_groups LU).
(** 87-190 *)
Definition computePotentialBlock {K : star_ring} (U : space K) (pR pU : list nat) (comps : nat) P
  (r0 r1 c0 c1 : nat) : option (mat K) :=
  if (r1 <? r0) || (c1 <? c0) then None else
  let nr := r1 - r0 in let nc := c1 - c0 in
  match getComponents pR comps r0 nr, getLists U pU c0 nc with
  | Some LC, Some LU =>
    match (if nc =? 1 then Some (pColumn P LC LU) else if nr =? 1 then pRow P LC LU else Some (pFat P LC LU)) with
    | Some us => addAll (zeroMat nr nc) us
    | None => None
    end
  | _, _ => None
  end.
