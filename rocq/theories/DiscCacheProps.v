(** C39, C77, C78, C79: the cache of discrete operators *)
From Verif Require Import Base DiscCacheModel DiscCacheProofs.
Set Implicit Arguments.

(** Operators whose ids are equal assemble the same weak form: [form] of the id's content. *)
Definition honest {W} (form : nat -> W) (op : absOp W) : Prop := forall i, op_id op = Some i -> op_form op = form (id_key i).
Definition honestEvent {W} (form : nat -> W) (e : event W) : Prop := match e with Request op => honest form op | Drop _ _ => True end.
(** during es a client always holds a pointer to o *)
Inductive holding {W} (hash : nat -> nat) (o : nat) : cstate W -> list (event W) -> cstate W -> Prop :=
| hold_nil s : In o (cs_refs s) -> holding hash o s [] s
| hold_cons s e es s' : In o (cs_refs s) -> holding hash o (cstep hash s e) es s' -> holding hash o s (e :: es) s'.

(** C39, one thread at a time.  After any history, a request returns a live object holding the
    weak form a fresh assembly would give; and while that object is held, requests with the
    same id object return it again without assembling anything. *)
Theorem C39_cache_sequential W (hash : nat -> nat) (form : nat -> W) es s op :
  history hash (cnew W) es s -> Forall (honestEvent form) es -> honest form op ->
  exists s1 o, getWeakForm hash s op = (s1, Some o) /\ nth_error (cs_heap s1) o = Some (op_form op) /\ In o (cs_refs s1) /\
    forall es' s2 op', holding hash o s1 es' s2 -> Forall (honestEvent form) es' -> honest form op' ->
      op_id op' = op_id op -> op_id op <> None ->
      exists s3, getWeakForm hash s2 op' = (s3, Some o) /\ cs_heap s3 = cs_heap s2.
Proof.
  intros H F SO. assert (SI : sinv form s) by (eapply history_inv; eauto using sinv_new).
  destruct (@get_ok W hash form s op SI SO) as (s1 & o & E & SI1 & V & A & _ & _ & FI & _ & _).
  exists s1, o. split; [exact E|]. split; [exact V|]. split; [exact A|]. intros es' s2 op' HO F' SO' EI NI.
  destruct (op_id op) as [i|] eqn:Ei; [|congruence]. specialize (FI i eq_refl).
  assert (K : keeping hash o s1 es' s2). { clear -HO. induction HO; [now apply k_nil|]. now apply k_cons. }
  destruct (@keeping_find W hash form o s1 es' s2 i K SI1 F' FI) as (F2 & A2 & SI2).
  destruct (@get_ok W hash form s2 op' SI2 SO') as (s3 & o3 & E3 & _ & _ & _ & _ & _ & _ & _ & Q).
  destruct (Q i o EI F2 A2) as (-> & EH). exists s3. split; [exact E3|exact EH].
Qed.
Print Assumptions C39_cache_sequential.

(** C77: several threads.  Whatever pointer is returned refers to the right weak form... *)
Theorem C77_cache_threads_partial W (hash : nat -> nat) (form : nat -> W) ops s t op o :
  Forall (honest form) ops -> psteps hash (pstart ops) s -> nth_error (p_threads s) t = Some (Returned op (Some o)) ->
  nth_error (p_heap s) o = Some (op_form op).
Proof.
  intros F ST N. assert (I : pinv form s).
  { eapply psteps_inv; [exact ST|]. split; [intros k x []|]. intros p Ip. cbn in Ip. apply in_map_iff in Ip as (q & <- & Iq). rewrite Forall_forall in F. exact (F _ Iq). }
  destruct I as (_ & I). exact (I _ (nth_error_In _ _ N) o eq_refl).
Qed.
Print Assumptions C77_cache_threads_partial.
(** ... but it may be NULL: two threads miss; the second finds the first one's entry at insert
    and locks it after the first one's caller has dropped its pointer. *)
Inductive action := ActThread (t : nat) | ActDrop (o : nat).
Fixpoint runActions {W} hash (s : pstate W) (l : list action) : option (pstate W) :=
  match l with
  | [] => Some s
  | ActThread t :: r =>
    match nth_error (p_threads s) t with
    | Some p => let '(H, R, M, p') := pstep1 hash s p in
                match upd (p_threads s) t p' with Some ths => runActions hash (PState H R M ths) r | None => None end
    | None => None end
  | ActDrop o :: r => runActions hash (PState (p_heap s) (removeOne (p_refs s) o) (p_map s) (p_threads s)) r
  end.
Lemma runActions_psteps W hash l : forall (s0 s s' : pstate W), psteps hash s0 s -> runActions hash s l = Some s' -> psteps hash s0 s'.
Proof.
  induction l as [|[t|o] l IH]; intros s0 s s' P E; cbn in E.
  - injection E as <-. exact P.
  - destruct (nth_error (p_threads s) t) as [p|] eqn:N; [|discriminate].
    destruct (pstep1 hash s p) as [[[H R] M] p'] eqn:Q. destruct (upd (p_threads s) t p') as [ths|] eqn:U; [|discriminate].
    eapply IH; [|exact E]. eapply ps_thread; eauto.
  - eapply IH; [|exact E]. now apply ps_drop.
Qed.
Definition ex_op : absOp nat := AbsOp (Some (IdObj 5 7)) 70.
Definition ex_sched : list action :=
  [ActThread 0; ActThread 1; ActThread 0; ActThread 1; ActThread 0; ActThread 1; ActThread 0; ActDrop 0; ActThread 1].
Definition isNull {W} (p : pc W) : bool := match p with Returned _ None => true | _ => false end.
Theorem C77_cache_threads_refuted : exists ops s t op,
  Forall (honest (fun k => 10 * k)) ops /\ psteps (fun a => a) (pstart ops) s /\ nth_error (p_threads s) t = Some (Returned op None).
Proof.
  exists [ex_op; ex_op].
  assert (E : runActions (fun a => a) (pstart [ex_op; ex_op]) ex_sched =
    Some (PState [70; 70] [] [(IdObj 5 7, 0)] [Returned ex_op (Some 0); Returned ex_op None])) by (vm_compute; reflexivity).
  eexists _, 1, ex_op. split; [|split; [eapply runActions_psteps; [apply ps_refl|exact E]|reflexivity]].
  repeat constructor; intros i Ei; injection Ei as <-; reflexivity.
Qed.
Print Assumptions C77_cache_threads_refuted.

(** C78: aliveOperators.  It only lists live objects - namely none. *)
Theorem C78_alive_operators_partial W (s : cstate W) o : In o (aliveOperators s) -> In o (cs_refs s).
Proof. unfold aliveOperators. cbn. intros []. Qed.
Print Assumptions C78_alive_operators_partial.
Theorem C78_alive_operators_refuted : exists s o, history (fun a => a) (cnew nat) [Request ex_op] s /\
  (exists i, In (i, o) (cs_map s)) /\ In o (cs_refs s) /\ ~ In o (aliveOperators s).
Proof.
  eexists _, 0. split; [apply h_cons, h_nil|]. cbn. split; [eexists; left; reflexivity|]. split; [now left|]. intros [].
Qed.
Print Assumptions C78_alive_operators_refuted.

(** C79: requests for an operator with an equal id return the cached object - true if the two
    id objects have the same hash (which is computed from their addresses), *)
Theorem C79_equal_ids_partial W (hash : nat -> nat) (form : nat -> W) es s op op' i i' :
  history hash (cnew W) es s -> Forall (honestEvent form) es -> honest form op -> honest form op' ->
  op_id op = Some i -> op_id op' = Some i' -> id_key i = id_key i' -> hash (id_addr i) = hash (id_addr i') ->
  exists s1 o s2, getWeakForm hash s op = (s1, Some o) /\ getWeakForm hash s1 op' = (s2, Some o) /\ cs_heap s2 = cs_heap s1.
Proof.
  intros H F SO SO' E E' EK EH. assert (SI : sinv form s) by (eapply history_inv; eauto using sinv_new).
  destruct (@get_ok W hash form s op SI SO) as (s1 & o & G & SI1 & V & A & _ & _ & FI & _ & _).
  destruct (@get_ok W hash form s1 op' SI1 SO') as (s2 & o2 & G2 & _ & _ & _ & _ & _ & _ & _ & Q).
  assert (F1 : DiscCacheModel.find hash (cs_map s1) i' = Some o).
  { rewrite <- (FI i E). unfold DiscCacheModel.find.
    replace (List.find (fun e => sameKey hash (fst e) i') (cs_map s1)) with (List.find (fun e => sameKey hash (fst e) i) (cs_map s1)); [reflexivity|].
    unfold sameKey. rewrite EK, EH. reflexivity. }
  destruct (Q i' o E' F1 A) as (-> & EHp). exists s1, o, s2. auto.
Qed.
Print Assumptions C79_equal_ids_partial.
(** and false otherwise. *)
Theorem C79_equal_ids_refuted (hash : nat -> nat) (a b : nat) : hash a <> hash b ->
  exists (op op' : absOp nat) i i' s1 o s2 o', op_id op = Some i /\ op_id op' = Some i' /\ id_key i = id_key i' /\ op_form op = op_form op' /\
    getWeakForm hash (cnew nat) op = (s1, Some o) /\ getWeakForm hash s1 op' = (s2, Some o') /\ o <> o'.
Proof.
  intro N. exists (AbsOp (Some (IdObj a 7)) 70), (AbsOp (Some (IdObj b 7)) 70), (IdObj a 7), (IdObj b 7).
  assert (Q : (hash a =? hash b) = false) by now apply Nat.eqb_neq.
  eexists _, 0, _, 1. do 4 (split; [reflexivity|]).
  unfold getWeakForm, insert, DiscCacheModel.find, sameKey. cbn. rewrite Nat.eqb_refl. cbn. split; [reflexivity|].
  cbn. rewrite Q. cbn. rewrite Q. cbn. rewrite Nat.eqb_refl. cbn. split; [reflexivity|discriminate].
Qed.
Print Assumptions C79_equal_ids_refuted.

(** instance of C39: request, drop, request (reassembles), request (shared) *)
Example C39_instance :
  let f s op := getWeakForm (fun a => a) s op in
  let s1 := fst (f (cnew nat) ex_op) in let s2 := cstep (fun a => a) s1 (Drop nat 0) in let s3 := fst (f s2 ex_op) in
  (snd (f (cnew nat) ex_op), snd (f s2 ex_op), snd (f s3 ex_op), length (cs_heap (fst (f s3 ex_op)))) = (Some 0, Some 1, Some 1, 2).
Proof. vm_compute. reflexivity. Qed.
