(** Model of local dof lists and component lists and their caches.
    /repo/lib/assembly/local_dof_lists_cache.cpp, component_lists_cache.cpp. *)
From Verif Require Import Base AsmModel.
Set Implicit Arguments.

(** std::map as a list sorted by key; [mset] is operator[]= *)
Fixpoint mset {Kt V : Type} (cmp : Kt -> Kt -> comparison) (k : Kt) (v : V) (m : list (Kt * V)) : list (Kt * V) :=
  match m with
  | [] => [(k, v)]
  | (k', v') :: r => match cmp k k' with
                     | Lt => (k, v) :: m
                     | Eq => (k, v) :: r
                     | Gt => (k', v') :: mset cmp k v r
                     end
  end.
Fixpoint mget {Kt V : Type} (cmp : Kt -> Kt -> comparison) (k : Kt) (m : list (Kt * V)) : option V :=
  match m with
  | [] => None
  | (k', v') :: r => match cmp k k' with Eq => Some v' | _ => mget cmp k r end
  end.
Definition mgetd {Kt V : Type} cmp (k : Kt) (m : list (Kt * V)) (d : V) : V :=
  match mget cmp k m with Some v => v | None => d end.
(** std::pair<int,int> ordering *)
Definition cmp2 (a b : nat * nat) : comparison :=
  match Nat.compare (fst a) (fst b) with Eq => Nat.compare (snd a) (snd b) | c => c end.

Fixpoint mapM {A B} (f : A -> option B) (l : list A) : option (list B) :=
  match l with
  | [] => Some []
  | a :: r => match f a, mapM f r with Some b, Some bs => Some (b :: bs) | _, _ => None end
  end.

(** LocalDofLists (local_dof_lists_cache.hpp:38-56): originalIndices, and per element the
    parallel vectors localDofIndices, localDofWeights, arrayIndices, which the code fills in
    lock-step and which are modelled as one list of (local dof, weight, array index). *)
Record dofLists (K : star_ring) := DofLists {
  dl_original : list nat;
  dl_groups : list (nat * list (nat * K * nat))
}.
Arguments DofLists {K}. Arguments dl_original {K}. Arguments dl_groups {K}.

(** local_dof_lists_cache.cpp:98-103; [None]: m_p2o read out of bounds *)
Definition originalIndices (p2o : list nat) (start count : nat) : option (list nat) :=
  mapM (fun i => nth_error p2o (start + i)) (seq 0 count).

(** requiredLocalDofs[e][(l, a)] = w (129-131) *)
Definition require {K : star_ring} (m : list (nat * list (nat * nat * K))) (x : nat * nat * K * nat) :
  list (nat * list (nat * nat * K)) :=
  let '(e, l, w, a) := x in
  mset Nat.compare e (mset cmp2 (l, a) w (mgetd Nat.compare e m [])) m.

(** 88-173 with m_indexWithGlobalDofs = true.  [None]: out of bounds or global2localDofs failed *)
Definition findLocalDofsRange {K : star_ring} (S : space K) (p2o : list nat) (start count : nat) : option (dofLists K) :=
  match originalIndices p2o start count with
  | None => None
  | Some orig =>
    match mapM (sp_g2l S) orig with
    | None => None
    | Some lds =>
      let ins := flat_map (fun al => let '(a, l) := al in map (fun x => let '(e, i, w) := x in (e, i, w, a)) l) (enumerate lds) in
      let required := fold_left require ins [] in
      Some (DofLists orig (map (fun g => (fst g, map (fun x => let '((l, a), w) := x in (l, w, a)) (snd g))) required))
    end
  end.
(** 176-216 with m_indexWithGlobalDofs = true *)
Definition findLocalDofsSingle {K : star_ring} (S : space K) (p2o : list nat) (index : nat) : option (dofLists K) :=
  match nth_error p2o index with
  | None => None
  | Some o =>
    match sp_g2l S o with
    | None => None
    | Some l => Some (DofLists [o] (map (fun x => let '(e, i, w) := x in (e, [(i, w, 0)])) l))
    end
  end.
(** the list object a get(start, count) call returns (47-85), the cache being transparent
    (see the cache machine below) *)
Definition getLists {K : star_ring} (S : space K) (p2o : list nat) (start count : nat) : option (dofLists K) :=
  if count =? 1 then findLocalDofsSingle S p2o start else findLocalDofsRange S p2o start count.

(** ---- component_lists_cache.cpp ---- *)
(** point index with its (component, array index) pairs *)
Definition compLists := list (nat * list (nat * nat)).
(** requiredComponents[p].insert((c, i)) (100-104); std::set as a sorted list *)
Definition requireComp (m : list (nat * list ((nat * nat) * unit))) (x : nat * nat * nat) :=
  let '(p, c, i) := x in
  mset Nat.compare p (mset cmp2 (c, i) tt (mgetd Nat.compare p m [])) m.
(** 76-123; [None]: m_p2o out of bounds, or division by componentCount = 0 *)
Definition findComponentsRange (p2o : list nat) (comps start count : nat) : option compLists :=
  if comps =? 0 then (if count =? 0 then Some [] else None) else
  match originalIndices p2o start count with
  | None => None
  | Some orig =>
    let ins := map (fun io => let '(i, o) := io in (o / comps, o mod comps, i)) (enumerate orig) in
    Some (map (fun g => (fst g, map fst (snd g))) (fold_left requireComp ins []))
  end.
(** 125-141 *)
Definition findComponentsSingle (p2o : list nat) (comps index : nat) : option compLists :=
  if comps =? 0 then None else
  match nth_error p2o index with
  | None => None
  | Some o => Some [(o / comps, [(o mod comps, 0)])]
  end.
(** 40-74 *)
Definition getComponents (p2o : list nat) (comps start count : nat) : option compLists :=
  if count =? 1 then findComponentsSingle p2o comps start else findComponentsRange p2o comps start count.

(** ---- the cache under concurrency (local_dof_lists_cache.cpp:47-85,
    component_lists_cache.cpp:40-74): a tbb::concurrent_unordered_map from keys to raw
    pointers.  find and insert are atomic (TBB's contract); everything else interleaves. *)
Section Cache.
  Variables (Key V : Type) (keyEq : Key -> Key -> bool) (find_ : Key -> V).
  Inductive cthread :=
  | CStart (k : Key)                (* about to call m_map.find *)
  | CMissed (k : Key)               (* about to allocate and fill the new lists *)
  | CBuilt (k : Key) (p : nat)      (* about to call m_map.insert *)
  | CLost (k : Key) (p q : nat)     (* insertion failed, about to delete p; q is in the map *)
  | CDone (k : Key) (q : nat).      (* returned a reference to *q *)
  (** heap cell: [Some v] allocated, [None] deleted *)
  Record cstate := CState { c_heap : list (option V); c_map : list (Key * nat); c_threads : list cthread }.
  Definition cfind (k : Key) (m : list (Key * nat)) : option nat :=
    match find (fun e => keyEq k (fst e)) m with Some e => Some (snd e) | None => None end.
  Definition cact (s : cstate) (th : cthread) : option (list (option V) * list (Key * nat) * cthread) :=
    match th with
    | CStart k => match cfind k (c_map s) with
                  | Some q => Some (c_heap s, c_map s, CDone k q)
                  | None => Some (c_heap s, c_map s, CMissed k) end
    | CMissed k => Some (c_heap s ++ [Some (find_ k)], c_map s, CBuilt k (length (c_heap s)))
    | CBuilt k p => match cfind k (c_map s) with
                    | Some q => Some (c_heap s, c_map s, CLost k p q)
                    | None => Some (c_heap s, (k, p) :: c_map s, CDone k p) end
    | CLost k p q => match upd (c_heap s) p None with
                     | Some h => Some (h, c_map s, CDone k q)
                     | None => None end
    | CDone _ _ => None
    end.
  Definition cstep (s : cstate) (t : nat) (s' : cstate) : Prop :=
    exists th h m th' ths, nth_error (c_threads s) t = Some th /\ cact s th = Some (h, m, th') /\
      upd (c_threads s) t th' = Some ths /\ s' = CState h m ths.
  Inductive cruns (s : cstate) : cstate -> Prop :=
  | cr_nil : cruns s s
  | cr_step s' s'' t : cruns s s' -> cstep s' t s'' -> cruns s s''.
End Cache.
