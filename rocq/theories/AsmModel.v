(** Model of dense assembly.  Matrices, updates under a mutex, and
    /repo/lib/assembly/dense_global_assembler.cpp, dense_global_block_assembler.cpp. *)
From Verif Require Import Base.
Set Implicit Arguments.

(** Eigen's Matrix<ResultType>: sizes and entries.  Access outside the sizes is undefined
    behaviour; the models make it a separate outcome. *)
Record mat (K : star_ring) := Mat { m_rows : nat; m_cols : nat; m_at : nat -> nat -> K }.
Arguments Mat {K}. Arguments m_rows {K}. Arguments m_cols {K}. Arguments m_at {K}.
Definition zeroMat {K : star_ring} (r c : nat) : mat K := Mat r c (fun _ _ => zero).
Definition inBounds {K : star_ring} (m : mat K) (r c : nat) : bool := (r <? m_rows m) && (c <? m_cols m).
Definition setAt {K : star_ring} (m : mat K) (r c : nat) (v : K) : mat K :=
  Mat (m_rows m) (m_cols m) (fun i j => if (i =? r) && (j =? c) then v else m_at m i j).
(** [result(r, c) += v]; [None]: outside the matrix *)
Definition addAt {K : star_ring} (m : mat K) (u : nat * nat * K) : option (mat K) :=
  let '(r, c, v) := u in
  if inBounds m r c then Some (setAt m r c (add (m_at m r c) v)) else None.
(** a loop nest whose body is [result(r, c) += v], as the sequence of its updates *)
Fixpoint addAll {K : star_ring} (m : mat K) (us : list (nat * nat * K)) : option (mat K) :=
  match us with
  | [] => Some m
  | u :: r => match addAt m u with Some m' => addAll m' r | None => None end
  end.

(** ---- threads sharing one matrix and one spin_mutex ---- *)
(** [IRead r c] loads result(r,c) into the thread's register, [IWrite r c v] stores
    register + v: together they are [result(r,c) += v]. *)
Inductive instr (K : star_ring) : Type :=
| ILock | IUnlock | IRead (r c : nat) | IWrite (r c : nat) (v : K).
Arguments ILock {K}. Arguments IUnlock {K}. Arguments IRead {K}. Arguments IWrite {K}.
(** scoped_lock around the loop nest of one task *)
Definition critical {K : star_ring} (us : list (nat * nat * K)) : list (instr K) :=
  ILock :: flat_map (fun u => let '(r, c, v) := u in [IRead r c; IWrite r c v]) us ++ [IUnlock].
Record pstate (K : star_ring) := PState {
  ps_mutex : option nat;              (* owner *)
  ps_mem : mat K;
  ps_threads : list (list (instr K) * K)   (* remaining program, register *)
}.
Arguments PState {K}. Arguments ps_mutex {K}. Arguments ps_mem {K}. Arguments ps_threads {K}.
Inductive outcome (K : star_ring) := Blocked | Fault | Next (s : pstate K).
Arguments Blocked {K}. Arguments Fault {K}. Arguments Next {K}.
(** one instruction of thread t *)
Definition tstep {K : star_ring} (s : pstate K) (t : nat) : outcome K :=
  match nth_error (ps_threads s) t with
  | None => Blocked
  | Some ([], _) => Blocked
  | Some (i :: p, reg) =>
    let go mtx mem reg' :=
      match upd (ps_threads s) t (p, reg') with Some th => Next (PState mtx mem th) | None => Fault end in
    match i with
    | ILock => match ps_mutex s with None => go (Some t) (ps_mem s) reg | Some _ => Blocked end
    | IUnlock => match ps_mutex s with
                 | Some o => if o =? t then go None (ps_mem s) reg else Fault
                 | None => Fault end
    | IRead r c => if inBounds (ps_mem s) r c then go (ps_mutex s) (ps_mem s) (m_at (ps_mem s) r c) else Fault
    | IWrite r c v => if inBounds (ps_mem s) r c then go (ps_mutex s) (setAt (ps_mem s) r c (add reg v)) reg else Fault
    end
  end.
(** executions: any interleaving; the index counts the steps *)
Inductive runs {K : star_ring} : pstate K -> nat -> pstate K -> Prop :=
| runs_nil s : runs s 0 s
| runs_step s n s' s'' t : runs s n s' -> tstep s' t = Next s'' -> runs s (S n) s''.
Definition finished {K : star_ring} (s : pstate K) : Prop :=
  forall t p reg, nth_error (ps_threads s) t = Some (p, reg) -> p = [].
(** threads with their task lists; each task is the program of one loop iteration *)
Definition start {K : star_ring} (m : mat K) (threads : list (list (list (instr K)))) : pstate K :=
  PState None m (map (fun tasks => (concat tasks, zero)) threads).

(** ---- spaces, as the assemblers use them ---- *)
(** [sp_dofs]: for each element the pairs (global dof or negative, weight) returned by
    Space::getGlobalDofs (which fills both vectors with the same length);
    [sp_g2l d]: Space::global2localDofs for one dof, (element, local dof, weight);
    [sp_count]: globalDofCount(). *)
Record space (K : star_ring) := Space {
  sp_count : nat;
  sp_dofs : list (list (Z * K));
  sp_g2l : nat -> option (list (nat * nat * K))
}.
Arguments Space {K}. Arguments sp_count {K}. Arguments sp_dofs {K}. Arguments sp_g2l {K}.

(** dense_global_assembler.cpp:84-94 (trial) and 288-297 (test): the element contributes *)
Definition contributes {K : star_ring} (ds : list (Z * K)) : bool := existsb (fun d => (0 <=? fst d)%Z) ds.
(** positions of a list with their content *)
Definition enumerate {A} (l : list A) : list (nat * A) := combine (seq 0 (length l)) l.
(** 285-297 *)
Definition testIndices {K : star_ring} (S : space K) : list nat :=
  map fst (filter (fun p => contributes (snd p)) (enumerate (sp_dofs S))).
(** 104-128: the updates of one trial element, [A te tr i j] being the local integral
    localResult[row](testDof, trialDof) delivered by evaluateLocalWeakForms *)
Definition trialUpdates {K : star_ring} (T U : space K) (A : nat -> nat -> nat -> nat -> K)
  (rows : list nat) (tr : nat) : list (nat * nat * K) :=
  flat_map (fun te =>
    flat_map (fun jd => let '(j, (gd, wtr)) := jd in
      if (gd <? 0)%Z then [] else
      flat_map (fun ie => let '(i, (ge, wte)) := ie in
        if (ge <? 0)%Z then [] else
        [(Z.to_nat ge, Z.to_nat gd, mul (mul (conj wte) wtr) (A te tr i j))])
        (enumerate (nth te (sp_dofs T) [])))
      (enumerate (nth tr (sp_dofs U) []))) rows.
(** 80-130: one iteration of the parallel loop *)
Definition trialTask {K : star_ring} (T U : space K) A (tr : nat) : list (instr K) :=
  if contributes (nth tr (sp_dofs U) []) then critical (trialUpdates T U A (testIndices T) tr) else [].
(** 265-318: [sched] lists, for each thread, the trial elements it processes, in order *)
Definition denseStart {K : star_ring} (T U : space K) A (sched : list (list nat)) : pstate K :=
  start (zeroMat (sp_count T) (sp_count U)) (map (map (trialTask T U A)) sched).

(** ---- dense_global_block_assembler.cpp ---- *)
(** 166-178: dofs outside [start, end) are replaced by -1 *)
Definition clipDofs {K : star_ring} (st en : Z) (ds : list (Z * K)) : list (Z * K) :=
  map (fun d => (if (fst d <? st)%Z || (en <=? fst d)%Z then (-1)%Z else fst d, snd d)) ds.
Fixpoint collect {A B} (f : A -> option (list B)) (l : list A) : option (list B) :=
  match l with
  | [] => Some []
  | a :: r => match f a, collect f r with Some x, Some y => Some (x ++ y) | _, _ => None end
  end.
(** 149-179: the keys of indexMap in order of insertion; [None]: global2localDofs failed *)
Definition gatherElements {K : star_ring} (S : space K) (st en : Z) : option (list nat) :=
  match collect (sp_g2l S) (map (fun k => Z.to_nat (st + Z.of_nat k)) (seq 0 (Z.to_nat (en - st)))) with
  | Some l => Some (fold_left (fun acc e => if existsb (Nat.eqb e) acc then acc else acc ++ [e]) (map (fun x => fst (fst x)) l) [])
  | None => None
  end.
(** 102-124: the updates of one trial element; [tests] is the iteration order of the
    unordered_map (unspecified, but the same for testIndices and for the loop) *)
Definition blockUpdates {K : star_ring} (T U : space K) (A : nat -> nat -> nat -> nat -> K)
  (r0 r1 c0 c1 : Z) (tests : list nat) (tr : nat) : list (nat * nat * K) :=
  flat_map (fun te =>
    flat_map (fun jd => let '(j, (gd, wtr)) := jd in
      if (gd <? 0)%Z then [] else
      flat_map (fun ie => let '(i, (ge, wte)) := ie in
        if (ge <? 0)%Z then [] else
        [(Z.to_nat (ge - r0), Z.to_nat (gd - c0), mul (mul (conj wte) wtr) (A te tr i j))])
        (enumerate (clipDofs r0 r1 (nth te (sp_dofs T) []))))
      (enumerate (clipDofs c0 c1 (nth tr (sp_dofs U) [])))) tests.
(** 184-201: what happens to a request.  globalDofCount() is a size_t, so a negative end is
    converted to a huge unsigned number and caught; a start behind the end is not caught and
    gives Matrix(rows, cols) a negative size (undefined behaviour). *)
Inductive blockVerdict := BThrows | BUndefined | BAccepted.
Definition overCount (n : nat) (x : Z) : bool := (x <? 0)%Z || (Z.of_nat n <? x)%Z.
Definition blockVerdictOf {K : star_ring} (T U : space K) (r0 r1 c0 c1 : Z) : blockVerdict :=
  if overCount (sp_count U) c1 || overCount (sp_count T) r1 || (c0 <? 0)%Z || (r0 <? 0)%Z then BThrows
  else if (r1 <? r0)%Z || (c1 <? c0)%Z then BUndefined else BAccepted.
(** 203-235.  [tests], [sched]: iteration order of the test map, distribution of the trial map *)
Definition blockStart {K : star_ring} (T U : space K) A (r0 r1 c0 c1 : Z) (tests : list nat) (sched : list (list nat)) : pstate K :=
  start (zeroMat (Z.to_nat (r1 - r0)) (Z.to_nat (c1 - c0)))
        (map (map (fun tr => critical (blockUpdates T U A r0 r1 c0 c1 tests tr))) sched).

(** ---- dense potential operators, dense_global_assembler.cpp:165-214, 347-385 ---- *)
(** [P point tr component j]: localResult[pointIndex](component, trialDof) *)
Definition potentialUpdates {K : star_ring} (U : space K) (P : nat -> nat -> nat -> nat -> K)
  (points comps : nat) (tr : nat) : list (nat * nat * K) :=
  flat_map (fun jd => let '(j, (gd, w)) := jd in
    if (gd <? 0)%Z then [] else
    flat_map (fun p => map (fun k => (p * comps + k, Z.to_nat gd, mul w (P p tr k j))) (seq 0 comps)) (seq 0 points))
    (enumerate (nth tr (sp_dofs U) [])).
Definition potentialTask {K : star_ring} (U : space K) P points comps (tr : nat) : list (instr K) :=
  if contributes (nth tr (sp_dofs U) []) then critical (potentialUpdates U P points comps tr) else [].
Definition potentialStart {K : star_ring} (U : space K) P points comps (sched : list (list nat)) : pstate K :=
  start (zeroMat (points * comps) (sp_count U)) (map (map (potentialTask U P points comps)) sched).
