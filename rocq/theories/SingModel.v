(** The singular part of integral operators, and connectivity matrices of grids:
    /repo/python/bempp/api/assembly/assembler.py (3-49, 118-210), /repo/python/bempp/api/grid/grid_view.py (23-75). *)
From Coq Require Import ZArith List Bool Arith.
Import ListNotations.
From Verif Require Import Base AsmModel.
Set Implicit Arguments.
Unset Strict Implicit.

(** scipy.sparse.csc_matrix((data, (rows, cols)), shape): entries at the same place are added, and indices outside of the
    shape raise (None) *)
Definition cooMatrix {K : star_ring} (r c : nat) (es : list (nat * nat * K)) : option (mat K) :=
  if forallb (fun e => (fst (fst e) <? r) && (snd (fst e) <? c)) es
  then Some (Mat r c (fun i j => bsum es (fun e => if (fst (fst e) =? i) && (snd (fst e) =? j) then snd e else zero)))
  else None.

(** grid_view.py 48-75: three sub-entities (vertices or edges) of each element, by their indices.  Elements are visited in the
    order of their indices (the sum does not depend on that) *)
Definition subEntities := (nat * nat * nat)%type.
Definition connectivity (count : nat) (els : list subEntities) : option (mat Zsr) :=
  @cooMatrix Zsr count (length els) (flat_map (fun p => let '(e, (a, b, c)) := p in [(a, e, 1%Z); (b, e, 1%Z); (c, e, 1%Z)]) (enumerate els)).

(** assembler.py 139-146: element_to_element_matrix = V^T V, and its nonzero entries *)
Definition elementToElement (V : mat Zsr) (e f : nat) : Z := @bsum Zsr nat (seq 0 (m_rows V)) (fun v => (m_at V v e * m_at V v f)%Z).
Definition indexPairs (V : mat Zsr) : list (nat * nat) :=
  filter (fun p => negb (elementToElement V (fst p) (snd p) =? 0)%Z) (list_prod (seq 0 (m_cols V)) (seq 0 (m_cols V))).

(** 151-166: pairs of functions with dofs on the two elements; get_global_dofs without weights *)
Definition globalDofs {K : star_ring} (S : space K) (e : nat) : list Z := map fst (nth e (sp_dofs S) []).
Definition functionPairs {K : star_ring} (T U : space K) (pairs : list (nat * nat)) : list (nat * nat) :=
  flat_map (fun p => flat_map (fun t => if (-1 <? t)%Z then
    flat_map (fun u => if (-1 <? u)%Z then [(Z.to_nat t, Z.to_nat u)] else []) (globalDofs U (snd p)) else []) (globalDofs T (fst p))) pairs.

(** 136-137: global_to_local_dofs(range(global_dof_count)); [None]: an index beyond it, IndexError *)
Definition localDofs {K : star_ring} (S : space K) (d : nat) : option (list (nat * nat * K)) :=
  if d <? sp_count S then sp_g2l S d else None.
(** 174-184 *)
Definition elementPairs {K : star_ring} (T U : space K) (fp : nat * nat) : option (list (nat * nat)) :=
  match localDofs T (fst fp), localDofs U (snd fp) with
  | Some lt, Some lu => Some (flat_map (fun t => map (fun u => (fst (fst t), fst (fst u))) lu) lt)
  | _, _ => None
  end.
(** dict(zip(pairs, weak_forms)).get(pair) (199): the last entry with the key *)
Definition lookup {V} (pairs : list (nat * nat)) (vals : list V) (p : nat * nat) : option V :=
  match find (fun kv => (fst (fst kv) =? fst p) && (snd (fst kv) =? snd p)) (rev (combine pairs vals)) with
  | Some kv => Some (snd kv) | None => None end.
(** sums whose terms may raise *)
Fixpoint sumOpt {K : star_ring} {A} (l : list A) (f : A -> option K) : option K :=
  match l with
  | [] => Some zero
  | a :: r => match f a, sumOpt r f with Some x, Some y => Some (add x y) | _, _ => None end
  end.
(** 34-45: data[index] *)
Definition dataEntry {K : star_ring} (T U : space K) (look : nat * nat -> option (nat -> nat -> K)) (fp : nat * nat) : option K :=
  match localDofs T (fst fp), localDofs U (snd fp) with
  | Some lt, Some lu => sumOpt lt (fun t => let '(e, i, w) := t in sumOpt lu (fun u => let '(f, j, v) := u in
      match look (e, f) with Some m => Some (mul (mul (m i j) (conj w)) (conj v)) | None => None end))
  | _, _ => None
  end.
(** 20-49 *)
Definition fromIntegrationPairs {K : star_ring} (T U : space K) (fps : list (nat * nat)) look : option (mat K) :=
  match collect (fun fp => match dataEntry T U look fp with Some x => Some [(fp, x)] | None => None end) fps with
  | Some es => cooMatrix (sp_count T) (sp_count U) es
  | None => None
  end.
(** 118-210: [sameGrid]: the two spaces have the same grid, with [nv] vertices and elements [els]; [unique] is list(set(.));
    [A]: the matrices of evaluate_local_weak_forms *)
Definition singularPart {K : star_ring} (sameGrid : bool) (nv : nat) (els : list subEntities) (T U : space K)
  (A : nat -> nat -> nat -> nat -> K) (unique : list (nat * nat) -> list (nat * nat)) : option (mat K) :=
  if negb sameGrid then Some (zeroMat (sp_count T) (sp_count U)) else
  match connectivity nv els with
  | None => None
  | Some V =>
    let fps := unique (functionPairs T U (indexPairs V)) in
    match collect (elementPairs T U) fps with
    | None => None
    | Some eps => let eps' := unique eps in
        fromIntegrationPairs T U fps (lookup eps' (map (fun p => A (fst p) (snd p)) eps'))
    end
  end.
