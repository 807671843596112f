(** Model of /repo/lib/assembly/discrete_boundary_operator_cache.cpp.
    Discrete operators are objects with reference counts; the cache holds weak pointers, i.e.
    it does not keep them alive.  The map finds a key iff an entry has an equal id
    (AbstractBoundaryOperatorId::isEqual) and an equal hash; the hash (28-34) is taken of the
    ADDRESS of the id object ([hash]).
    Simplifications: find, insert, lock and the assignment of a weak pointer are atomic (the
    code itself notes that the assignment is not). *)
From Verif Require Import Base.
Set Implicit Arguments.

(** an id object: its address and its content *)
Record idObj := IdObj { id_addr : nat; id_key : nat }.
(** an abstract operator: id() (None: not cacheable) and the weak form it assembles *)
Record absOp (W : Type) := AbsOp { op_id : option idObj; op_form : W }.
Arguments AbsOp {W}. Arguments op_id {W}. Arguments op_form {W}.

Section Cache.
  Variable W : Type.
  Variable hash : nat -> nat.
  Definition sameKey (a b : idObj) : bool := (hash (id_addr a) =? hash (id_addr b)) && (id_key a =? id_key b).

  (** [cs_heap]: weak forms of all objects ever created; [cs_refs]: objects referred to by
      shared pointers of clients; [cs_map]: the entries *)
  Record cstate := CState { cs_heap : list W; cs_refs : list nat; cs_map : list (idObj * nat) }.
  Definition cnew : cstate := CState [] [] [].
  Definition find (m : list (idObj * nat)) (i : idObj) : option nat :=
    match List.find (fun e => sameKey (fst e) i) m with Some e => Some (snd e) | None => None end.
  Definition assign (m : list (idObj * nat)) (i : idObj) (o : nat) : list (idObj * nat) :=
    map (fun e => if sameKey (fst e) i then (fst e, o) else e) m.
  (** insert: no effect if the key exists *)
  Definition insert (m : list (idObj * nat)) (i : idObj) (o : nat) : list (idObj * nat) :=
    match find m i with Some _ => m | None => m ++ [(i, o)] end.
  Definition alive (refs : list nat) (o : nat) : bool := existsb (Nat.eqb o) refs.
  Fixpoint removeOne (l : list nat) (o : nat) : list nat :=
    match l with [] => [] | a :: r => if a =? o then r else a :: removeOne r o end.

  (** ---- one thread: 61-110.  The new state and the returned pointer (None: NULL) ---- *)
  Definition getWeakForm (s : cstate) (op : absOp W) : cstate * option nat :=
    let fresh := length (cs_heap s) in
    let heap' := cs_heap s ++ [op_form op] in
    match op_id op with
    | None => (CState heap' (fresh :: cs_refs s) (cs_map s), Some fresh)
    | Some i =>
      match find (cs_map s) i with
      | Some o =>
        if alive (cs_refs s) o then (CState (cs_heap s) (o :: cs_refs s) (cs_map s), Some o)
        else (CState heap' (fresh :: cs_refs s) (assign (cs_map s) i fresh), Some fresh)
      | None =>
        (* discreteOp is still referred to when the entry is locked *)
        let m' := insert (cs_map s) i fresh in
        match find m' i with
        | Some o => if alive (fresh :: cs_refs s) o
                    then (CState heap' (o :: cs_refs s) m', Some o)
                    else (CState heap' (cs_refs s) m', None)
        | None => (CState heap' (cs_refs s) m', None)
        end
      end
    end.
  (** histories: requests, and clients dropping a pointer *)
  Inductive event := Request (op : absOp W) | Drop (o : nat).
  Definition cstep (s : cstate) (e : event) : cstate :=
    match e with
    | Request op => fst (getWeakForm s op)
    | Drop o => CState (cs_heap s) (removeOne (cs_refs s) o) (cs_map s)
    end.
  Inductive history : cstate -> list event -> cstate -> Prop :=
  | h_nil s : history s [] s
  | h_cons s e es s' : history (cstep s e) es s' -> history s (e :: es) s'.

  (** ---- several threads ---- *)
  (** where a call of getWeakForm is; the numbers are objects it refers to by a shared pointer *)
  Inductive pc :=
  | Start (op : absOp W)
  | Found (op : absOp W) (i : idObj)            (* 76: entry found *)
  | Expired (op : absOp W) (i : idObj)          (* 83: lock() failed *)
  | Reassembled (op : absOp W) (i : idObj) (o : nat)   (* 86 *)
  | Assigned (op : absOp W) (i : idObj) (o : nat)      (* 89 *)
  | Missing (op : absOp W) (i : idObj)          (* 95 *)
  | Assembled (op : absOp W) (i : idObj) (o : nat)     (* 98 *)
  | Inserted (op : absOp W) (i : idObj) (o : nat)      (* 101 *)
  | Returned (op : absOp W) (r : option nat).
  Record pstate := PState { p_heap : list W; p_refs : list nat; p_map : list (idObj * nat); p_threads : list pc }.
  Definition ownRefs (p : pc) : list nat :=
    match p with Reassembled _ _ o | Assigned _ _ o | Assembled _ _ o | Inserted _ _ o => [o] | _ => [] end.
  (** everything referred to by some shared pointer *)
  Definition allRefs (s : pstate) : list nat := p_refs s ++ flat_map ownRefs (p_threads s).
  (** lock of the entry for i: the pointer goes to the client *)
  Definition lockReturn (s : pstate) (op : absOp W) (i : idObj) : list nat * pc :=
    match find (p_map s) i with
    | Some o => if alive (allRefs s) o then (o :: p_refs s, Returned op (Some o)) else (p_refs s, Returned op None)
    | None => (p_refs s, Returned op None)
    end.
  Definition pstep1 (s : pstate) (p : pc) : list W * list nat * list (idObj * nat) * pc :=
    let H := p_heap s in let R := p_refs s in let M := p_map s in
    match p with
    | Start op =>
      match op_id op with
      | None => (H ++ [op_form op], length H :: R, M, Returned op (Some (length H)))
      | Some i => match find M i with Some _ => (H, R, M, Found op i) | None => (H, R, M, Missing op i) end
      end
    | Found op i =>
      match find M i with
      | Some o => if alive (allRefs s) o then (H, o :: R, M, Returned op (Some o)) else (H, R, M, Expired op i)
      | None => (H, R, M, Expired op i)
      end
    | Expired op i => (H ++ [op_form op], R, M, Reassembled op i (length H))
    | Reassembled op i o => (H, R, assign M i o, Assigned op i o)
    | Assigned op i o => let '(R', p') := lockReturn s op i in (H, R', M, p')
    | Missing op i => (H ++ [op_form op], R, M, Assembled op i (length H))
    | Assembled op i o => (H, R, insert M i o, Inserted op i o)
    | Inserted op i o => let '(R', p') := lockReturn s op i in (H, R', M, p')
    | Returned op r => (H, R, M, Returned op r)
    end.
  (** any thread makes a step, or a client drops a pointer *)
  Inductive psteps : pstate -> pstate -> Prop :=
  | ps_refl s : psteps s s
  | ps_thread s s' t p H R M p' ths : psteps s s' -> nth_error (p_threads s') t = Some p ->
      pstep1 s' p = (H, R, M, p') -> upd (p_threads s') t p' = Some ths -> psteps s (PState H R M ths)
  | ps_drop s s' o : psteps s s' -> psteps s (PState (p_heap s') (removeOne (p_refs s') o) (p_map s') (p_threads s')).
  Definition pstart (ops : list (absOp W)) : pstate := PState [] [] [] (map (fun op => Start op) ops).

  (** 113-129: for (it = begin(); it != begin(); ++it) ...; iterators as positions *)
  Fixpoint aliveLoop (fuel it begin_ : nat) (m : list (idObj * nat)) (refs : list nat) : list nat :=
    match fuel with
    | 0 => []
    | S f =>
      if it =? begin_ then []
      else match nth_error m it with
           | Some (_, o) => (if alive refs o then [o] else []) ++ aliveLoop f (S it) begin_ m refs
           | None => aliveLoop f (S it) begin_ m refs
           end
    end.
  Definition aliveOperators (s : cstate) : list nat := aliveLoop (S (length (cs_map s))) 0 0 (cs_map s) (cs_refs s).
End Cache.
