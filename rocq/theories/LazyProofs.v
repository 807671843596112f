From Verif Require Import Base LazyModel.
Set Implicit Arguments.

Definition inside (th : lth) : bool := match th with LIn | LBuilding | LBuilt _ | LRelease | LThrowing => true | _ => false end.
Definition lthOk (s : lstate) (th : lth) : Prop :=
  match th with
  | LBuilding | LThrowing => l_value s = None /\ l_made s = 0
  | LBuilt p => l_value s = None /\ p = 0 /\ l_made s = 1
  | LRelease | LExit => l_value s = Some 0
  | LRet p => p = 0 /\ l_value s = Some 0
  | LBad => False
  | LTop | LWant | LIn | LThrew => True
  end.
Definition linv (s : lstate) : Prop :=
  (forall t th, nth_error (l_threads s) t = Some th -> (l_mutex s = Some t <-> inside th = true)) /\
  (forall t, l_mutex s = Some t -> t < length (l_threads s)) /\
  (forall t th, nth_error (l_threads s) t = Some th -> lthOk s th) /\
  ((l_value s = Some 0 /\ l_made s = 1) \/
   (l_value s = None /\ (l_made s = 0 \/ exists t p, nth_error (l_threads s) t = Some (LBuilt p)))).

Lemma lstart_inv n : linv (lstart n).
Proof.
  assert (E : forall t th, nth_error (repeat LTop n) t = Some th -> th = LTop) by (intros t th H; apply nth_error_In, repeat_spec in H; exact H).
  unfold linv, lstart; cbn. split; [|split; [|split]].
  - intros t th H. rewrite (E _ _ H). cbn. split; discriminate.
  - discriminate.
  - intros t th H. rewrite (E _ _ H). exact I.
  - right. auto.
Qed.

(** which values the fields take after a step *)
Lemma lstep_inv s t ok s' : linv s -> lstep s t ok = Some s' -> linv s'.
Proof.
  intros (H1 & H2 & H3 & H4) E. unfold lstep in E.
  destruct (nth_error (l_threads s) t) as [th|] eqn:Et; [|discriminate]. cbv zeta in E.
  assert (Hlt : t < length (l_threads s)) by (apply nth_error_Some; congruence).
  pose proof (H1 t th Et) as M. pose proof (H3 t th Et) as O.
  assert (key : forall v m n e th', upd (l_threads s) t th' <> None ->
     (match upd (l_threads s) t th' with Some l => Some (LState v m n e l) | None => None end) = Some s' ->
     (forall t0 th0, t0 <> t -> nth_error (l_threads s) t0 = Some th0 -> (m = Some t0 <-> inside th0 = true)) ->
     (m = Some t <-> inside th' = true) -> (m = Some t \/ m = None \/ m = l_mutex s) ->
     (forall t0 th0, t0 <> t -> nth_error (l_threads s) t0 = Some th0 -> lthOk (LState v m n e []) th0) ->
     lthOk (LState v m n e []) th' ->
     ((v = Some 0 /\ n = 1) \/ (v = None /\ (n = 0 \/ (exists p, th' = LBuilt p) \/
         (exists t0 p, t0 <> t /\ nth_error (l_threads s) t0 = Some (LBuilt p))))) -> linv s').
  { intros v m n e th' _ E' K1 K2 K3 K4 K5 K6. destruct (upd (l_threads s) t th') as [l|] eqn:U; [|discriminate]. inversion E'; subst s'; clear E'.
    unfold linv; cbn [l_threads l_value l_mutex l_made].
    assert (NT : forall k, nth_error l k = if k =? t then Some th' else nth_error (l_threads s) k) by (intros k; exact (upd_nth_error _ _ _ k U)).
    split; [|split; [|split]].
    - intros t0 th0. rewrite NT. destruct (Nat.eqb_spec t0 t) as [->|Hne]; [intros X; inversion X; subst; exact K2|now apply K1].
    - intros t0 Hm. rewrite (upd_length _ _ _ U). destruct K3 as [K3|[K3|K3]]; rewrite Hm in K3; [inversion K3; subst; exact Hlt|discriminate|]. now apply H2.
    - intros t0 th0. rewrite NT. assert (forall th1, lthOk (LState v m n e []) th1 -> lthOk (LState v m n e l) th1) as C by (intros th1; destruct th1; exact (fun x => x)).
      destruct (Nat.eqb_spec t0 t) as [->|Hne]; [intros X; inversion X; subst; auto|]. intros X. apply C. eapply K4; eauto.
    - destruct K6 as [K6|[Kv [K6|[(p & ->)|(t0 & p & Hne & K6)]]]].
      + left; exact K6.
      + right. split; [exact Kv|left; exact K6].
      + right. split; [exact Kv|right]. exists t, p. rewrite NT, Nat.eqb_refl. reflexivity.
      + right. split; [exact Kv|right]. exists t0, p. rewrite NT. destruct (Nat.eqb_spec t0 t); [contradiction|exact K6]. }
  assert (U : forall th', upd (l_threads s) t th' <> None) by (intros th'; destruct (@upd_Some _ (l_threads s) t th' Hlt) as (l & ->); discriminate).
  assert (Hother : forall t0 th0, t0 <> t -> nth_error (l_threads s) t0 = Some th0 -> (l_mutex s = Some t0 <-> inside th0 = true)) by (intros; auto).
  assert (Hok : forall v t0 th0, v = l_value s -> t0 <> t -> nth_error (l_threads s) t0 = Some th0 -> forall m e, lthOk (LState v m (l_made s) e []) th0).
  { intros v t0 th0 -> _ X m e. pose proof (H3 _ _ X) as Y. destruct th0; exact Y. }
  assert (Hkeep : forall th', (forall p, th <> LBuilt p) -> ((l_value s = Some 0 /\ l_made s = 1) \/ (l_value s = None /\ (l_made s = 0 \/ (exists p, th' = LBuilt p) \/
         (exists t0 p, t0 <> t /\ nth_error (l_threads s) t0 = Some (LBuilt p)))))).
  { intros th' Hn. destruct H4 as [H4|[Hv [H4|(t0 & p & H4)]]]; [left; exact H4|right; auto|right]. split; [exact Hv|]. right; right. exists t0, p. split; [|exact H4].
    intros ->. rewrite Et in H4. inversion H4. now apply (Hn p). }
  assert (Hexcl : inside th = true -> forall t0 th0, t0 <> t -> nth_error (l_threads s) t0 = Some th0 -> inside th0 = false).
  { intros Hin t0 th0 Hne X. destruct (inside th0) eqn:I0; [|reflexivity]. apply (H1 _ _ X) in I0. apply M in Hin. congruence. }
  assert (Hrel : inside th = true -> forall t0 th0, t0 <> t -> nth_error (l_threads s) t0 = Some th0 -> (@None nat = Some t0 <-> inside th0 = true)).
  { intros Hin t0 th0 Hne X. rewrite (Hexcl Hin _ _ Hne X). split; discriminate. }
  destruct th as [| | | |p| | | |p| |].
  - (* LTop *) refine (key _ _ _ _ _ (U _) E _ _ _ _ _ _).
    + exact Hother.
    + destruct (l_value s); exact M.
    + auto.
    + intros; now eapply Hok; eauto.
    + destruct H4 as [[Hv _]|[Hv _]]; rewrite Hv; cbn; auto.
    + apply Hkeep. congruence.
  - (* LWant *) destruct (l_mutex s) eqn:Em; [discriminate|]. refine (key _ _ _ _ _ (U _) E _ _ _ _ _ _).
    + intros t0 th0 Hne X. pose proof (H1 _ _ X) as Y. split; [intros Z; inversion Z; subst; contradiction|intros Z; apply Y in Z; discriminate].
    + split; reflexivity.
    + auto.
    + intros; now eapply Hok; eauto.
    + exact I.
    + apply Hkeep. congruence.
  - (* LIn *) destruct (l_value s) as [v|] eqn:Ev.
    + assert (v = 0) by (destruct H4 as [[Hv _]|[Hv _]]; congruence). subst v. refine (key _ _ _ _ _ (U _) E _ _ _ _ _ _).
      * exact Hother.
      * exact M.
      * auto.
      * intros; eapply Hok; eauto.
      * reflexivity.
      * apply Hkeep. congruence.
    + assert (Em : l_made s = 0).
      { destruct H4 as [[? ?]|[_ [H4|(t0 & p & H4)]]]; [discriminate|exact H4|].
        exfalso; destruct (Nat.eq_dec t0 t) as [->|Hne]; [rewrite Et in H4; discriminate|].
        pose proof (Hexcl eq_refl _ _ Hne H4); discriminate. }
      refine (key _ _ _ _ _ (U _) E _ _ _ _ _ _).
      * exact Hother.
      * exact M.
      * auto.
      * intros; eapply Hok; eauto.
      * cbn. auto.
      * right; auto.
  - (* LBuilding *) destruct O as [Ov Om]. destruct ok.
    + refine (key _ _ _ _ _ (U _) E _ _ _ _ _ _).
      * exact Hother.
      * exact M.
      * auto.
      * intros t0 th0 Hne X. pose proof (Hexcl eq_refl _ _ Hne X) as Y. pose proof (H3 _ _ X) as Z. destruct th0; cbn in *; try discriminate; auto; intuition congruence.
      * cbn. rewrite Om. auto.
      * right. split; [exact Ov|]. right; left. eauto.
    + refine (key _ _ _ _ _ (U _) E _ _ _ _ _ _).
      * exact Hother.
      * exact M.
      * auto.
      * intros; eapply Hok; eauto.
      * cbn. auto.
      * right. split; [exact Ov|auto].
  - (* LBuilt *) destruct O as (Ov & Op & Om). subst p. refine (key _ _ _ _ _ (U _) E _ _ _ _ _ _).
    + exact Hother.
    + exact M.
    + auto.
    + intros t0 th0 Hne X. pose proof (Hexcl eq_refl _ _ Hne X) as Y. pose proof (H3 _ _ X) as Z. destruct th0; cbn in *; try discriminate; auto; intuition congruence.
    + reflexivity.
    + left; auto.
  - (* LRelease *) refine (key _ _ _ _ _ (U _) E _ _ _ _ _ _).
    + exact (Hrel eq_refl).
    + split; discriminate.
    + auto.
    + intros; eapply Hok; eauto.
    + exact O.
    + apply Hkeep. congruence.
  - (* LThrowing *) refine (key _ _ _ _ _ (U _) E _ _ _ _ _ _).
    + exact (Hrel eq_refl).
    + split; discriminate.
    + auto.
    + intros; eapply Hok; eauto.
    + exact I.
    + right. destruct O; auto.
  - (* LExit *) cbn in O. rewrite O in E. refine (key _ _ _ _ _ (U _) E _ _ _ _ _ _).
    + exact Hother.
    + exact M.
    + auto.
    + intros; eapply Hok; eauto.
    + cbn; auto.
    + destruct H4 as [H4|[? _]]; [left; split; [reflexivity|tauto]|congruence].
  - discriminate.
  - discriminate.
  - discriminate.
Qed.
Lemma lruns_inv n s : lruns (lstart n) s -> linv s.
Proof. intros R. induction R; [apply lstart_inv|]. eapply lstep_inv; eauto. Qed.

Definition lweight (th : lth) : nat := match th with LTop => 7 | LWant => 6 | LIn => 5 | LBuilding => 4 | LBuilt _ => 3 | LRelease => 2 | LThrowing => 1 | LExit => 1 | _ => 0 end.
Definition ldone (th : lth) : Prop := match th with LRet _ | LThrew | LBad => True | _ => False end.
Lemma list_sum_upd_lt A (w : A -> nat) (l : list A) : forall t x y l', nth_error l t = Some x -> upd l t y = Some l' -> w y < w x ->
  list_sum (map w l') < list_sum (map w l).
Proof.
  induction l as [|a l IH]; intros [|t] x y l' Hx Hu Hw; cbn in *; try discriminate.
  - inversion Hx; inversion Hu; subst. cbn. unfold list_sum. lia.
  - destruct (upd l t y) eqn:U; [|discriminate]. inversion Hu; subst. cbn. specialize (IH _ _ _ _ Hx U Hw). unfold list_sum in *. lia.
Qed.
Lemma lstep_measure s t ok s' : lstep s t ok = Some s' -> list_sum (map lweight (l_threads s')) < list_sum (map lweight (l_threads s)).
Proof.
  unfold lstep. destruct (nth_error (l_threads s) t) as [th|] eqn:Et; [|discriminate]. cbv zeta.
  assert (K : forall v m n e th', lweight th' < lweight th -> match upd (l_threads s) t th' with Some l => Some (LState v m n e l) | None => None end = Some s' ->
    list_sum (map lweight (l_threads s')) < list_sum (map lweight (l_threads s))).
  { intros v m n e th' Hw E. destruct (upd (l_threads s) t th') as [l|] eqn:U; [|discriminate]. inversion E; subst. cbn. eapply list_sum_upd_lt; eauto. }
  destruct th; intros E; try discriminate; try (eapply K; [|exact E]; cbn; lia).
  - eapply K; [|exact E]. destruct (l_value s); cbn; lia.
  - destruct (l_mutex s); [discriminate|]. eapply K; [|exact E]; cbn; lia.
  - destruct (l_value s); eapply K; try exact E; cbn; lia.
  - destruct ok; eapply K; try exact E; cbn; lia.
  - eapply K; [|exact E]. destruct (l_value s); cbn; lia.
Qed.
Lemma lprogress s : linv s -> (forall t th, nth_error (l_threads s) t = Some th -> ldone th) \/ exists t, forall ok, exists s', lstep s t ok = Some s'.
Proof.
  intros (H1 & H2 & H3 & H4).
  assert (G : forall t th, nth_error (l_threads s) t = Some th -> (th = LWant -> l_mutex s = None) -> ~ ldone th -> forall ok, exists s', lstep s t ok = Some s').
  { intros t th Et Hm Hd ok. unfold lstep. rewrite Et. cbv zeta. assert (Hlt : t < length (l_threads s)) by (apply nth_error_Some; congruence).
    assert (U : forall v m n e th', exists s', match upd (l_threads s) t th' with Some l => Some (LState v m n e l) | None => None end = Some s').
    { intros. destruct (@upd_Some _ (l_threads s) t th' Hlt) as (l & ->). eauto. }
    destruct th; cbn in Hd; try (exfalso; now apply Hd); try apply U.
    - rewrite (Hm eq_refl). apply U.
    - destruct (l_value s); apply U.
    - destruct ok; apply U. }
  destruct (l_mutex s) as [o|] eqn:Em.
  - right. exists o. pose proof (H2 o eq_refl) as Hl. destruct (nth_error (l_threads s) o) as [th|] eqn:Et; [|apply nth_error_None in Et; lia].
    pose proof (proj1 (H1 _ _ Et) eq_refl) as Hi. apply (G o th Et); destruct th; cbn in *; try discriminate; try tauto; congruence.
  - assert (D : forall l, (forall th, In th l -> ldone th) \/ exists th, In th l /\ ~ ldone th).
    { induction l as [|a l IH]; [left; intros ? []|]. destruct IH as [IH|(th & Hin & Hn)]; [|right; exists th; split; [now right|exact Hn]].
      destruct a; try (right; eexists; split; [now left|cbn; tauto]); left; intros th [<-|Hin]; cbn; auto. }
    destruct (D (l_threads s)) as [Hd|(th & Hin & Hn)].
    + left. intros t th Et. apply Hd. eapply nth_error_In; eauto.
    + right. apply In_nth_error in Hin. destruct Hin as (t & Et). exists t. apply (G t th Et); auto.
Qed.

(** every run of the initialiser constructed an object, threw, or is still running *)
Definition lcnt (th : lth) : nat := match th with LBuilding | LThrowing | LThrew => 1 | _ => 0 end.
Lemma list_sum_upd_eq A (w : A -> nat) (l : list A) : forall t x y l', nth_error l t = Some x -> upd l t y = Some l' ->
  list_sum (map w l') + w x = list_sum (map w l) + w y.
Proof.
  induction l as [|a l IH]; intros [|t] x y l' Hx Hu; cbn in *; try discriminate.
  - inversion Hx; inversion Hu; subst. cbn. unfold list_sum. lia.
  - destruct (upd l t y) eqn:U; [|discriminate]. inversion Hu; subst. cbn. specialize (IH _ _ _ _ Hx U). unfold list_sum in *. lia.
Qed.
Lemma list_sum_repeat0 A (w : A -> nat) a n : w a = 0 -> list_sum (map w (repeat a n)) = 0.
Proof. intros H. induction n as [|n IH]; [reflexivity|]. cbn. unfold list_sum in *. rewrite H. exact IH. Qed.
Lemma lruns_entered n s : lruns (lstart n) s -> l_entered s = l_made s + list_sum (map lcnt (l_threads s)).
Proof.
  intros R. induction R as [|s s' t ok R IH E].
  - cbn. now rewrite list_sum_repeat0.
  - unfold lstep in E. destruct (nth_error (l_threads s) t) as [th|] eqn:Et; [|discriminate]. cbv zeta in E.
    assert (K : forall v m n e th', match upd (l_threads s) t th' with Some l => Some (LState v m n e l) | None => None end = Some s' ->
      l_entered s' = e /\ l_made s' = n /\ list_sum (map lcnt (l_threads s')) + lcnt th = list_sum (map lcnt (l_threads s)) + lcnt th').
    { intros v m n' e th' E'. destruct (upd (l_threads s) t th') as [l|] eqn:U; [|discriminate]. inversion E'; subst. cbn. split; [reflexivity|]. split; [reflexivity|]. eapply list_sum_upd_eq; eauto. }
    destruct th; try discriminate;
    repeat match type of E with context [match ?x with _ => _ end] =>
       match x with upd _ _ _ => fail 1 | _ => destruct x end end; try discriminate; apply K in E; destruct E as (E1 & E2 & E3); rewrite E1, E2; cbn [lcnt] in E3; lia.
Qed.
(** without throwing initialisers nobody leaves by exception *)
Inductive lrunsOk (s : lstate) : lstate -> Prop :=
| lo_nil : lrunsOk s s
| lo_step s' s'' t : lrunsOk s s' -> lstep s' t true = Some s'' -> lrunsOk s s''.
Lemma lrunsOk_runs s s' : lrunsOk s s' -> lruns s s'.
Proof. intros R. induction R; [constructor|]. econstructor; eauto. Qed.
Lemma lrunsOk_nothrow n s : lrunsOk (lstart n) s -> forall t th, nth_error (l_threads s) t = Some th -> th <> LThrew /\ th <> LThrowing.
Proof.
  intros R. induction R as [|s s' t R IH E]; intros t0 th0 H0.
  - cbn in H0. apply nth_error_In, repeat_spec in H0. subst. split; discriminate.
  - unfold lstep in E. destruct (nth_error (l_threads s) t) as [th|] eqn:Et; [|discriminate]. cbv zeta in E.
    assert (K : forall v m n e th', match upd (l_threads s) t th' with Some l => Some (LState v m n e l) | None => None end = Some s' ->
      th' <> LThrew /\ th' <> LThrowing -> th0 <> LThrew /\ th0 <> LThrowing).
    { intros v m n' e th' E' H'. destruct (upd (l_threads s) t th') as [l|] eqn:U; [|discriminate]. inversion E'; subst. cbn in H0.
      rewrite (upd_nth_error _ _ _ t0 U) in H0. destruct (t0 =? t); [inversion H0; subst; exact H'|eapply IH; eauto]. }
    pose proof (IH _ _ Et) as Hth.
    destruct th; try discriminate;
    repeat match type of E with context [match ?x with _ => _ end] =>
       match x with upd _ _ _ => fail 1 | _ => destruct x end end; try discriminate; (eapply K; [exact E|]); try (split; discriminate). now destruct Hth.
Qed.

(** ---- barycentricGridSonPair ---- *)
Definition binside (th : bth) : bool := match th with BIn | BBuild | BPublish | BResize | BFill | BRelease _ => true | _ => false end.
Section Bary.
  Variable total : nat.
  Definition complete (m : option nat) : Prop := m = Some total.
  Definition bthOk (g : bool) (m : option nat) (th : bth) : Prop :=
    match th with
    | BTop | BWant | BIn => True
    | BBuild | BPublish => g = false /\ m = None
    | BResize => g = true /\ m = None
    | BFill => g = true /\ exists k, m = Some k /\ k <= total
    | BRelease w => w = true /\ g = true /\ complete m
    | BRead w => g = true /\ (w = true -> complete m)
    | BRet w g' m' => g' = true /\ g = true /\ (w = true -> complete m' /\ complete m)
    end.
  Definition filling (th : bth) : bool := match th with BResize | BFill => true | _ => false end.
  Definition binv (s : bstate) : Prop :=
    (forall t th, nth_error (bs_threads s) t = Some th -> (bs_mutex s = Some t <-> binside th = true)) /\
    (forall t, bs_mutex s = Some t -> t < length (bs_threads s)) /\
    (forall t th, nth_error (bs_threads s) t = Some th -> bthOk (bs_grid s) (bs_map s) th) /\
    (bs_grid s = false -> bs_map s = None) /\
    (bs_grid s = true -> complete (bs_map s) \/ exists t th, nth_error (bs_threads s) t = Some th /\ filling th = true).
  Lemma bstart_inv n : binv (bstart n).
  Proof.
    assert (E : forall t th, nth_error (repeat BTop n) t = Some th -> th = BTop) by (intros t th H; apply nth_error_In, repeat_spec in H; exact H).
    unfold binv, bstart; cbn. split; [|split; [|split; [|split]]].
    - intros t th H. rewrite (E _ _ H). cbn. split; discriminate.
    - discriminate.
    - intros t th H. rewrite (E _ _ H). exact I.
    - reflexivity.
    - discriminate.
  Qed.
  Lemma bstep_inv s t s' : binv s -> bstep total s t = Some s' -> binv s'.
  Proof.
    intros (H1 & H2 & H3 & H4 & H5) E. unfold bstep in E.
    destruct (nth_error (bs_threads s) t) as [th|] eqn:Et; [|discriminate]. cbv zeta in E.
    assert (Hlt : t < length (bs_threads s)) by (apply nth_error_Some; congruence).
    pose proof (H1 t th Et) as M. pose proof (H3 t th Et) as O.
    assert (key : forall g m x th',
     (match upd (bs_threads s) t th' with Some l => Some (BState g m x l) | None => None end) = Some s' ->
     (forall t0 th0, t0 <> t -> nth_error (bs_threads s) t0 = Some th0 -> (x = Some t0 <-> binside th0 = true)) ->
     (x = Some t <-> binside th' = true) -> (x = Some t \/ x = None \/ x = bs_mutex s) ->
     (forall t0 th0, t0 <> t -> nth_error (bs_threads s) t0 = Some th0 -> bthOk g m th0) ->
     bthOk g m th' -> (g = false -> m = None) ->
     (g = true -> complete m \/ filling th' = true \/ exists t0 th0, t0 <> t /\ nth_error (bs_threads s) t0 = Some th0 /\ filling th0 = true) -> binv s').
    { intros g m x th' E' K1 K2 K3 K4 K5 K6 K7. destruct (upd (bs_threads s) t th') as [l|] eqn:U; [|discriminate]. inversion E'; subst s'; clear E'.
      unfold binv; cbn [bs_threads bs_grid bs_map bs_mutex].
      assert (NT : forall k, nth_error l k = if k =? t then Some th' else nth_error (bs_threads s) k) by (intros k; exact (upd_nth_error _ _ _ k U)).
      split; [|split; [|split; [|split]]].
      - intros t0 th0. rewrite NT. destruct (Nat.eqb_spec t0 t) as [->|Hne]; [intros X; inversion X; subst; exact K2|now apply K1].
      - intros t0 Hm. rewrite (upd_length _ _ _ U). destruct K3 as [K3|[K3|K3]]; rewrite Hm in K3; [inversion K3; subst; exact Hlt|discriminate|]. now apply H2.
      - intros t0 th0. rewrite NT. destruct (Nat.eqb_spec t0 t) as [->|Hne]; [intros X; inversion X; subst; auto|]. intros X. eapply K4; eauto.
      - exact K6.
      - intros Hg. destruct (K7 Hg) as [K|[K|(t0 & th0 & Hne & K8 & K9)]]; [left; exact K|right|right].
        + exists t, th'. rewrite NT, Nat.eqb_refl. auto.
        + exists t0, th0. rewrite NT. destruct (Nat.eqb_spec t0 t); [contradiction|]. auto. }
    assert (Hother : forall t0 th0, t0 <> t -> nth_error (bs_threads s) t0 = Some th0 -> (bs_mutex s = Some t0 <-> binside th0 = true)) by (intros; auto).
    assert (Hok : forall t0 th0, t0 <> t -> nth_error (bs_threads s) t0 = Some th0 -> bthOk (bs_grid s) (bs_map s) th0) by (intros; eauto).
    assert (Hkeep : forall th', (filling th = true -> False) -> bs_grid s = true -> complete (bs_map s) \/ filling th' = true \/ exists t0 th0, t0 <> t /\ nth_error (bs_threads s) t0 = Some th0 /\ filling th0 = true).
    { intros th' Hf Hg. destruct (H5 Hg) as [K|(t0 & th0 & K1 & K2)]; [left; exact K|right; right]. exists t0, th0. split; [|auto]. intros ->. rewrite Et in K1. inversion K1; subst. auto. }
    assert (Hexcl : binside th = true -> forall t0 th0, t0 <> t -> nth_error (bs_threads s) t0 = Some th0 -> binside th0 = false).
    { intros Hin t0 th0 Hne X. destruct (binside th0) eqn:I0; [|reflexivity]. apply (H1 _ _ X) in I0. apply M in Hin. congruence. }
    assert (Hrel : binside th = true -> forall t0 th0, t0 <> t -> nth_error (bs_threads s) t0 = Some th0 -> (@None nat = Some t0 <-> binside th0 = true)).
    { intros Hin t0 th0 Hne X. rewrite (Hexcl Hin _ _ Hne X). split; discriminate. }
    assert (Hfill : binside th = true -> filling th = false -> bs_grid s = true -> complete (bs_map s)).
    { intros Hin Hf Hg. destruct (H5 Hg) as [K|(t0 & th0 & K1 & K2)]; [exact K|]. destruct (Nat.eq_dec t0 t) as [->|Hne].
      - rewrite Et in K1. inversion K1; subst. congruence.
      - pose proof (Hexcl Hin _ _ Hne K1). destruct th0; discriminate. }
    destruct th as [| | | | | | |w|w|w g' m'].
    - refine (key _ _ _ _ E Hother _ _ Hok _ H4 (fun Hg => Hkeep _ ltac:(discriminate) Hg)).
      + destruct (bs_grid s); exact M.
      + auto.
      + destruct (bs_grid s) eqn:Eg; cbn; [split; [reflexivity|discriminate]|exact I].
    - destruct (bs_mutex s) eqn:Em; [discriminate|]. refine (key _ _ _ _ E _ _ _ Hok _ H4 (fun Hg => Hkeep _ ltac:(discriminate) Hg)).
      + intros t0 th0 Hne X. pose proof (H1 _ _ X) as Y. split; [intros Z; inversion Z; subst; contradiction|intros Z; apply Y in Z; discriminate].
      + split; reflexivity.
      + auto.
      + exact I.
    - refine (key _ _ _ _ E Hother _ _ Hok _ H4 (fun Hg => Hkeep _ ltac:(discriminate) Hg)).
      + destruct (bs_grid s); exact M.
      + auto.
      + destruct (bs_grid s) eqn:Eg; cbn; auto.
    - refine (key _ _ _ _ E Hother M _ Hok _ H4 (fun Hg => Hkeep _ ltac:(discriminate) Hg)); auto.
    - destruct O as [Og Om]. refine (key _ _ _ _ E Hother M _ _ _ _ _).
      + auto.
      + intros t0 th0 Hne X. pose proof (Hexcl eq_refl _ _ Hne X) as Y. pose proof (Hok _ _ Hne X) as Z. rewrite Og in Z. destruct th0; cbn in *; try discriminate; auto; intuition congruence.
      + cbn; auto.
      + discriminate.
      + intros _. right; left. reflexivity.
    - destruct O as [Og Om]. refine (key _ _ _ _ E Hother M _ _ _ _ _).
      + auto.
      + intros t0 th0 Hne X. pose proof (Hexcl eq_refl _ _ Hne X) as Y. pose proof (Hok _ _ Hne X) as Z. rewrite Og, Om in *. unfold complete in *. destruct th0; cbn in *; try discriminate; auto; unfold complete in *; intuition congruence.
      + cbn. split; [exact Og|]. exists 0. split; [reflexivity|lia].
      + congruence.
      + intros _. right; left. reflexivity.
    - destruct O as (Og & k & Ek & Hk). rewrite Ek in E. destruct (Nat.ltb_spec k total) as [Hlt'|Hge].
      + refine (key _ _ _ _ E Hother M _ _ _ _ _).
        * auto.
        * intros t0 th0 Hne X. pose proof (Hexcl eq_refl _ _ Hne X) as Y. pose proof (Hok _ _ Hne X) as Z. rewrite Ek in Z.
          assert (C : complete (Some k) -> False) by (unfold complete; intros C; inversion C; lia).
          destruct th0; cbn in *; try discriminate; auto; intuition congruence.
        * cbn. split; [exact Og|]. eauto.
        * congruence.
        * intros _. right; left. reflexivity.
      + assert (k = total) by lia. subst k.
        refine (key _ _ _ _ E Hother M _ _ _ _ _).
        * auto.
        * intros t0 th0 Hne X. rewrite <- Ek. eapply Hok; eauto.
        * cbn. unfold complete. auto.
        * congruence.
        * intros _. left. reflexivity.
    - destruct O as (-> & Og & Om). refine (key _ _ _ _ E (Hrel eq_refl) _ _ Hok _ H4 (fun Hg => Hkeep _ ltac:(discriminate) Hg)).
      + split; discriminate.
      + auto.
      + cbn; auto.
    - destruct O as (Og & Om). refine (key _ _ _ _ E Hother M _ Hok _ H4 (fun Hg => Hkeep _ ltac:(discriminate) Hg)).
      + auto.
      + cbn. auto.
    - discriminate.
  Qed.
  Lemma bruns_inv n s : bruns total (bstart n) s -> binv s.
  Proof. intros R. induction R; [apply bstart_inv|]. eapply bstep_inv; eauto. Qed.
  (** once complete, the pair stays as it is *)
  Lemma bstep_keep s t s' : binv s -> bs_grid s = true -> complete (bs_map s) -> (forall t0 th, nth_error (bs_threads s) t0 = Some th -> filling th = true -> False) ->
    bstep total s t = Some s' -> bs_grid s' = true /\ complete (bs_map s') /\ (forall t0 th, nth_error (bs_threads s') t0 = Some th -> filling th = true -> False).
  Proof.
    intros (_ & _ & H3 & _) Hg Hm Hf E. unfold bstep in E. destruct (nth_error (bs_threads s) t) as [th|] eqn:Et; [|discriminate]. cbv zeta in E.
    assert (K : forall x th', filling th' = false -> (match upd (bs_threads s) t th' with Some l => Some (BState (bs_grid s) (bs_map s) x l) | None => None end) = Some s' ->
      bs_grid s' = true /\ complete (bs_map s') /\ (forall t0 th, nth_error (bs_threads s') t0 = Some th -> filling th = true -> False)).
    { intros x th' Hth E'. destruct (upd (bs_threads s) t th') as [l|] eqn:U; [|discriminate]. inversion E'; subst. cbn. split; [exact Hg|]. split; [exact Hm|].
      intros t0 th0 X Y. rewrite (upd_nth_error _ _ _ t0 U) in X. destruct (t0 =? t); [inversion X; subst; congruence|eauto]. }
    pose proof (H3 _ _ Et) as O. pose proof (Hf _ _ Et) as F. destruct th; try (eapply K; [|exact E]; reflexivity); cbn in O, F.
    - eapply K; [|exact E]. now destruct (bs_grid s).
    - destruct (bs_mutex s); [discriminate|]. eapply K; [|exact E]. reflexivity.
    - eapply K; [|exact E]. now destruct (bs_grid s).
    - destruct O; congruence.
    - now destruct (F eq_refl).
    - now destruct (F eq_refl).
    - discriminate.
  Qed.
  Lemma bkeep s s' : binv s -> bs_grid s = true -> bs_mutex s = None -> bruns total s s' -> bs_grid s' = true /\ complete (bs_map s').
  Proof.
    intros HI Hg Hm R.
    assert (F : forall t0 th, nth_error (bs_threads s) t0 = Some th -> filling th = true -> False).
    { intros t th X Y. destruct HI as (H1 & _). assert (binside th = true) as Z by (destruct th; try discriminate; reflexivity). apply (H1 _ _ X) in Z. congruence. }
    assert (C : complete (bs_map s)). { destruct HI as (_ & _ & _ & _ & H5). destruct (H5 Hg) as [K|(t & th & X & Y)]; [exact K|]. exfalso; eauto. }
    assert (G : binv s' /\ bs_grid s' = true /\ complete (bs_map s') /\ (forall t0 th, nth_error (bs_threads s') t0 = Some th -> filling th = true -> False)).
    { induction R as [|s' s'' t R IH E]; [auto|]. destruct IH as (I1 & I2 & I3 & I4). split; [eapply bstep_inv; eauto|]. eapply bstep_keep; eauto. }
    tauto.
  Qed.
End Bary.
