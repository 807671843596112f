(** Model of /repo/lib/assembly/elementary_local_operator.cpp: assembly of local operators
    (identity, Laplace-Beltrami) in dense and in sparse mode.
    Simplifications: exact arithmetic; the local assembler's evaluateLocalWeakForms is a
    function [L] of the element.  [None]: a failed assertion or an access out of bounds. *)
From Verif Require Import Base AsmModel OperModel.
Set Implicit Arguments.

Section Model.
  (** R: basis function type (real); K: result type; [emb]: conversion from R to K;
      [rp]: Matrix<K>::real() (identity for real K) *)
  Variables (R K : star_ring) (emb : R -> K) (rp : K -> R).
  Variables (T U : space R).

  (** 110-127, 239-285: number of elements of the grid (test and trial space share it) *)
  Definition elementCount : nat := length (sp_dofs T).
  (** the loops address localResult[e](i, j) for all local dofs i, j of the element *)
  Definition shapeOk (M : mat K) (e : nat) : bool :=
    (m_rows M =? length (nth e (sp_dofs T) [])) && (m_cols M =? length (nth e (sp_dofs U) [])).

  (** 267-283 *)
  Definition denseUpdates (L : nat -> mat K) (e : nat) : list (nat * nat * K) :=
    flat_map (fun jd => let '(j, (gd, wtr)) := jd in
      if (gd <? 0)%Z then [] else
      flat_map (fun ie => let '(i, (ge, wte)) := ie in
        if (ge <? 0)%Z then [] else
        [(Z.to_nat ge, Z.to_nat gd, mul (mul (conj (emb wte)) (emb wtr)) (m_at (L e) i j))])
        (enumerate (nth e (sp_dofs T) [])))
      (enumerate (nth e (sp_dofs U) [])).
  Definition localDense (L : nat -> mat K) : option (mat K) :=
    if forallb (fun e => shapeOk (L e) e) (seq 0 elementCount)
    then addAll (zeroMat (sp_count T) (sp_count U)) (flat_map (denseUpdates L) (seq 0 elementCount))
    else None.

  (** 308-324: the parallel loop; [ranges] are the sub-ranges in the order in which they are
      executed (they write disjoint slots).  Each evaluates its elements and stores the results. *)
  Fixpoint storeAll (slots : list (mat K)) (ws : list (nat * mat K)) : option (list (mat K)) :=
    match ws with
    | [] => Some slots
    | (i, M) :: r => match upd slots i M with Some s => storeAll s r | None => None end
    end.
  Definition localResults (L : nat -> mat K) (ranges : list (nat * nat)) : option (list (mat K)) :=
    storeAll (repeat (zeroMat 0 0) elementCount)
      (flat_map (fun r => map (fun i => (i, L i)) (seq (fst r) (snd r - fst r))) ranges).
  (** 336-341: localResult[e](i,j) *= conj(w_i) * v_j *)
  Definition weighted (e : nat) (M : mat K) : mat K :=
    Mat (m_rows M) (m_cols M) (fun i j =>
      match nth_error (nth e (sp_dofs T) []) i, nth_error (nth e (sp_dofs U) []) j with
      | Some (_, wte), Some (_, wtr) => mul (m_at M i j) (mul (conj (emb wte)) (emb wtr))
      | _, _ => m_at M i j end).
  (** 110-140 and 155-191: generateTriplets *)
  Definition triplets (e : nat) (M : mat K) : list (nat * nat * R) :=
    flat_map (fun j => match nth_error (nth e (sp_dofs U) []) j with
      | Some (gd, _) => if (gd <? 0)%Z then [] else
        flat_map (fun i => match nth_error (nth e (sp_dofs T) []) i with
          | Some (ge, _) => if (ge <? 0)%Z then [] else [(Z.to_nat ge, Z.to_nat gd, rp (m_at M i j))]
          | None => [] end) (seq 0 (m_rows M))
      | None => [] end) (seq 0 (m_cols M)).
  (** 290-356; setFromTriplets adds up the triplets of an entry *)
  Definition localSparse (L : nat -> mat K) (ranges : list (nat * nat)) : option (mat R) :=
    match localResults L ranges with
    | None => None
    | Some res =>
      if forallb (fun e => shapeOk (nth e res (zeroMat 0 0)) e) (seq 0 elementCount)
      then addAll (zeroMat (sp_count T) (sp_count U))
             (flat_map (fun e => triplets e (weighted e (nth e res (zeroMat 0 0)))) (seq 0 elementCount))
      else None
    end.
End Model.
