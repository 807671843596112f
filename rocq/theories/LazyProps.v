From Verif Require Import Base LazyModel LazyProofs.

(** C24: n concurrent calls of Lazy::get(), every interleaving, initialisers that may throw. *)
Theorem C24_lazy_get (n : nat) (s : lstate) :
  lruns (lstart n) s ->
  (* a call that returned has the one object, and no call dereferences null *)
  (forall t p, nth_error (l_threads s) t = Some (LRet p) -> p = 0 /\ l_value s = Some 0) /\
  (forall t, nth_error (l_threads s) t <> Some LBad) /\
  (* at most one object is ever constructed, at most one initialiser runs at a time, and
     every entry into the initialiser constructed it, threw, or is still running *)
  l_made s <= 1 /\
  (forall t t', nth_error (l_threads s) t = Some LBuilding -> nth_error (l_threads s) t' = Some LBuilding -> t = t' /\ l_made s = 0) /\
  l_entered s = l_made s + list_sum (map (fun th => match th with LBuilding | LThrowing | LThrew => 1 | _ => 0 end) (l_threads s)) /\
  (* no deadlock, bounded length *)
  ((forall t th, nth_error (l_threads s) t = Some th -> th = LThrew \/ th = LRet 0) \/
   exists t, forall ok, exists s', lstep s t ok = Some s') /\
  (forall t ok s', lstep s t ok = Some s' -> list_sum (map lweight (l_threads s')) < list_sum (map lweight (l_threads s))).
Proof.
  intros R. pose proof (lruns_inv R) as HI. destruct HI as (H1 & H2 & H3 & H4).
  split. { intros t p Et. exact (H3 _ _ Et). }
  split. { intros t Et. exact (H3 _ _ Et). }
  split. { destruct H4 as [[_ H]|[_ [H|(t & p & Et)]]]; [lia|lia|]. destruct (H3 _ _ Et) as (_ & _ & ->). lia. }
  split. { intros t t' E1 E2. pose proof (proj2 (H1 _ _ E1) eq_refl). pose proof (proj2 (H1 _ _ E2) eq_refl). split; [congruence|]. exact (proj2 (H3 _ _ E1)). }
  split; [exact (lruns_entered R)|].
  split; [|intros; eapply lstep_measure; eauto].
  destruct (@lprogress s) as [D|P]; [exact (lruns_inv R)| |right; exact P].
  left. intros t th Et. pose proof (D _ _ Et) as Hd. pose proof (H3 _ _ Et) as Ho. destruct th; cbn in *; try contradiction; [right|left; reflexivity].
  destruct Ho as [-> _]. reflexivity.
Qed.
Print Assumptions C24_lazy_get.
(** if the initialiser never throws, all calls return the object and it ran exactly once *)
Theorem C24_lazy_once (n : nat) (s : lstate) :
  lrunsOk (lstart n) s -> 0 < n -> (forall t ok, lstep s t ok = None) ->
  length (l_threads s) = n /\ (forall t, t < n -> nth_error (l_threads s) t = Some (LRet 0)) /\ l_made s = 1 /\ l_entered s = 1.
Proof.
  intros R Hn Stuck. pose proof (lrunsOk_runs R) as R'. pose proof (lruns_inv R') as HI.
  assert (L : length (l_threads s) = n).
  { clear -R. induction R as [|s s' t R IH E]; [cbn; apply repeat_length|]. rewrite <- IH. unfold lstep in E.
    destruct (nth_error (l_threads s) t) as [th|]; [|discriminate]. cbv zeta in E.
    assert (K : forall v m k e th', match upd (l_threads s) t th' with Some l => Some (LState v m k e l) | None => None end = Some s' -> length (l_threads s') = length (l_threads s)).
    { intros v m k e th' E'. destruct (upd (l_threads s) t th') eqn:U; [|discriminate]. inversion E'; subst. cbn. exact (upd_length _ _ _ U). }
    destruct th; try discriminate; repeat match type of E with context [match ?x with _ => _ end] =>
       match x with upd _ _ _ => fail 1 | _ => destruct x end end; try discriminate; eapply K; exact E. }
  destruct (C24_lazy_get n s R') as (P1 & _ & P3 & _ & P5 & [P6|(t & P6)] & _); [|destruct (P6 true) as (s' & E); rewrite Stuck in E; discriminate].
  assert (D : forall t, t < n -> nth_error (l_threads s) t = Some (LRet 0)).
  { intros t Ht. destruct (nth_error (l_threads s) t) as [th|] eqn:Et; [|apply nth_error_None in Et; lia].
    destruct (P6 _ _ Et) as [->| ->]; [|reflexivity]. destruct (lrunsOk_nothrow R _ Et) as [[] _]. reflexivity. }
  split; [exact L|]. split; [exact D|].
  destruct (P1 0 0 (D 0 Hn)) as [_ Hv]. destruct HI as (_ & _ & _ & [[_ Hm]|[Hv' _]]); [|congruence]. split; [exact Hm|].
  rewrite P5, Hm.
  enough (Z : forall l : list lth, (forall th, In th l -> th = LRet 0) -> list_sum (map (fun th => match th with LBuilding | LThrowing | LThrew => 1 | _ => 0 end) l) = 0).
  { rewrite Z; [reflexivity|]. intros th Hin. apply In_nth_error in Hin. destruct Hin as (t & Et). assert (t < n) by (rewrite <- L; apply nth_error_Some; congruence).
    rewrite D in Et by assumption. congruence. }
  clear. induction l as [|a l IH]; intros H; [reflexivity|]. cbn. rewrite (H a (or_introl eq_refl)). unfold list_sum in *. apply IH. intros; apply H; now right.
Qed.
Print Assumptions C24_lazy_once.
Definition runl (s : lstate) (l : list nat) : option lstate :=
  fold_left (fun o t => match o with Some s => lstep s t true | None => None end) l (Some s).
Example C24_instance : runl (lstart 3) [0;1;0;0;2;0;0;0;0;1;1;1;1;2;2;2;2] =
  Some (LState (Some 0) None 1 1 [LRet 0; LRet 0; LRet 0]).
Proof. reflexivity. Qed.

(** C69: barycentricGridSonPair publishes the grid before its son map is filled. *)
Theorem C69_barycentric_pair_partial (total n : nat) (s : bstate) :
  bruns total (bstart n) s ->
  (forall t w g m, nth_error (bs_threads s) t = Some (BRet w g m) ->
     g = true /\ (w = true -> m = Some total)) /\
  (forall t t', (exists th, nth_error (bs_threads s) t = Some th /\ binside th = true) ->
     (exists th, nth_error (bs_threads s) t' = Some th /\ binside th = true) -> t = t') /\
  (bs_grid s = true -> bs_mutex s = None -> forall s', bruns total s s' -> bs_grid s' = true /\ bs_map s' = Some total).
Proof.
  intros R. pose proof (bruns_inv R) as HI. split; [|split].
  - intros t w g m Et. destruct HI as (_ & _ & H3 & _). destruct (H3 _ _ Et) as (H & _ & C). split; [exact H|]. intros Hw. exact (proj1 (C Hw)).
  - intros t t' (th & E1 & I1) (th' & E2 & I2). destruct HI as (H1 & _). apply (H1 _ _ E1) in I1. apply (H1 _ _ E2) in I2. congruence.
  - intros Hg Hm s' R'. exact (bkeep HI Hg Hm R').
Qed.
Print Assumptions C69_barycentric_pair_partial.
Theorem C69_barycentric_pair_refuted :
  exists (total n : nat) (s : bstate) t g m, bruns total (bstart n) s /\
    nth_error (bs_threads s) t = Some (BRet false g m) /\ 0 < total /\ m <> Some total.
Proof.
  exists 12, 2, (BState true None (Some 0) [BResize; BRet false true None]), 1, true, None.
  split; [|split; [reflexivity|split; [lia|discriminate]]].
  assert (St : forall s s' t, bruns 12 (bstart 2) s -> bstep 12 s t = Some s' -> bruns 12 (bstart 2) s') by (intros; econstructor; eauto).
  eapply (St (BState true None (Some 0) [BResize; BRead false]) _ 1); [|reflexivity].
  eapply (St (BState true None (Some 0) [BResize; BTop]) _ 1); [|reflexivity].
  eapply (St (BState false None (Some 0) [BPublish; BTop]) _ 0); [|reflexivity].
  eapply (St (BState false None (Some 0) [BBuild; BTop]) _ 0); [|reflexivity].
  eapply (St (BState false None (Some 0) [BIn; BTop]) _ 0); [|reflexivity].
  eapply (St (BState false None None [BWant; BTop]) _ 0); [|reflexivity].
  eapply (St (bstart 2) _ 0); [constructor|reflexivity].
Qed.
Print Assumptions C69_barycentric_pair_refuted.
