From Coq Require Import List ZArith Bool Lia Permutation.
Import ListNotations.
From Verif Require Import SegModel FspModel FspSpec.
Open Scope Z_scope.

Definition seg (d : option (list Z)) (closed : bool) : option (list Z * bool) := match d with None => None | Some l => Some (l, closed) end.
Ltac zcase H := repeat match type of H with
  | context [Z.eqb ?x ?y] => destruct (Z.eqb_spec x y); cbn [andb] in H; try discriminate
  | context [Z.leb ?x ?y] => destruct (Z.leb_spec x y); cbn [andb] in H; try discriminate
  | context [Z.ltb ?x ?y] => destruct (Z.ltb_spec x y); cbn [andb] in H; try discriminate
  end.
Lemma core_inv g k o d cl st rf el c : coreSpace g k o d cl st rf el = Some c ->
  c_grid c = g /\ c_kind c = k /\ c_order c = o /\ c_segment c = seg d cl /\ orders k o /\ (d = None \/ restrictable k = true) /\ (rf = true \/ el = true) /\
  c_strict c = (match d with None => false | Some _ => match k with P => st | _ => false end end) /\
  c_mode c = (match d with None => 0 | Some _ => match k with DP => if o =? 0 then 0 else dofMode rf el | _ => 0 end end).
Proof.
  unfold coreSpace. intros H.
  assert (M : rf = true \/ el = true) by (destruct rf, el; auto; discriminate H).
  destruct (dofMode rf el <? 2); [discriminate|].
  destruct k, d as [d|]; zcase H; try discriminate H; injection H as <-; cbn -[dofMode]; repeat split; auto; try lia.
Qed.
Lemma core_ok g k o d cl st rf el : orders k o -> (d = None \/ restrictable k = true) -> (rf = true \/ el = true) -> exists c, coreSpace g k o d cl st rf el = Some c.
Proof.
  intros O D M. unfold coreSpace. replace (dofMode rf el <? 2) with false by (destruct M as [->| ->]; [destruct el|destruct rf]; reflexivity).
  destruct k; cbn [orders restrictable] in *; try (exfalso; exact O); destruct d as [d|]; try (destruct D; discriminate);
    repeat match goal with |- context [Z.eqb ?x ?y] => destruct (Z.eqb_spec x y); try lia | |- context [Z.leb ?x ?y] => destruct (Z.leb_spec x y); try lia end; cbn [andb]; eauto.
Qed.

(** inversion of the constructors *)
Lemma obind_some A B (x : option A) (f : A -> option B) b : obind x f = Some b -> exists a, x = Some a /\ f a = Some b.
Proof. destruct x; cbn; [eauto|discriminate]. Qed.
Lemma call_some fs a r : call fs a = Some r -> exists s, fs a = Some s /\ r = Other s.
Proof. unfold call. destruct (fs a); cbn; [|discriminate]. intros H. injection H as <-. eauto. Qed.
Ltac inv H := repeat (first [apply obind_some in H; destruct H as (? & ? & H)
  | match goal with C : call _ _ = Some _ |- _ => apply call_some in C; destruct C as (? & ? & ->) end
  | match goal with C : obind _ _ = Some _ |- _ => apply obind_some in C; destruct C as (? & ? & C) end]).

Lemma dp_inv f a s : functionSpaceWith f a = Some s -> a_kind a = DP ->
  exists c, coreSpace (a_grid a) DP (a_order a) (a_domains a) (a_closed a) false (a_ref a) (a_elem a) = Some c /\ s = PSpace c (a_order a) Self Self Self Nothing false (a_grid a) (Some a).
Proof.
  destruct f; [discriminate|]. cbn [functionSpaceWith]. unfold dispatch. intros H E. rewrite E in H. unfold mkDP in H. inv H. injection H as <-. eauto.
Qed.
Lemma p_inv f a s : functionSpaceWith f a = Some s -> a_kind a = P ->
  exists c d, coreSpace (a_grid a) P (a_order a) (a_domains a) (a_closed a) (a_strict a) true (a_elem a) = Some c /\
    functionSpaceWith (pred f) (discArgs (a_grid a) (a_order a) (a_domains a) (a_closed a) (a_strict a)) = Some d /\
    s = PSpace c (a_order a) Self (Other d) (Other d) Nothing false (a_grid a) (Some a).
Proof.
  destruct f; [discriminate|]. cbn [functionSpaceWith pred]. unfold dispatch. intros H E. rewrite E in H. unfold mkP in H. inv H. injection H as <-. eauto 10.
Qed.
Definition vectorKind (k : kind) : bool := match k with RT | NC | SNC | RWG => true | _ => false end.
Lemma vec_inv f a s : functionSpaceWith f a = Some s -> vectorKind (a_kind a) = true ->
  a_order a <= 0 /\ exists c d h, coreSpace (a_grid a) (a_kind a) 0 (a_domains a) (a_closed a) false true false = Some c /\
    functionSpaceWith (pred f) (discArgs (a_grid a) 1 (a_domains a) (a_closed a) false) = Some d /\
    match partner (a_kind a) with None => h = Nothing | Some k => exists x, h = Other x /\ functionSpaceWith (pred f) (withDomains (a_grid a) k 0 (a_domains a) (a_closed a)) = Some x end /\
    s = PSpace c 0 Self (Other d) Self h false (a_grid a) (Some a).
Proof.
  destruct f; [discriminate|]. cbn [functionSpaceWith pred]. unfold dispatch. intros H E. destruct (a_kind a) eqn:K; try discriminate E;
  (destruct (Z.ltb_spec 0 (a_order a)); [discriminate H|]; split; [lia|]; unfold mkVector in H; inv H);
  try match goal with C : Some Nothing = Some _ |- _ => injection C as <- end; injection H as <-; cbn [partner]; eauto 15.
Qed.
Arguments dp_inv {f a s}. Arguments p_inv {f a s}. Arguments vec_inv {f a s}.
Lemma disc_kind g o d cl st : a_kind (discArgs g o d cl st) = DP. Proof. unfold discArgs. destruct cl; reflexivity. Qed.
Lemma disc_dom g o d cl st : a_domains (discArgs g o d cl st) = d /\ a_closed (discArgs g o d cl st) = cl /\ a_grid (discArgs g o d cl st) = g /\ a_order (discArgs g o d cl st) = o /\
  (a_ref (discArgs g o d cl st) = true \/ a_elem (discArgs g o d cl st) = true).
Proof. unfold discArgs. destruct cl; cbn; auto 10. Qed.
Lemma hdiv_inv f g k k' d cl x : partner k = Some k' -> vectorKind k = true -> functionSpaceWith f (withDomains g k' 0 d cl) = Some x ->
  c_kind (coreOf x) = k' /\ c_grid (coreOf x) = g /\ gridOf x = g /\ c_segment (coreOf x) = seg d cl.
Proof.
  intros Pk V H. assert (V' : vectorKind k' = true) by (destruct k; try discriminate; injection Pk as <-; reflexivity).
  destruct (vec_inv H V') as (_ & c & d' & h & C & _ & _ & ->). cbn [a_grid a_kind a_order a_domains a_closed a_strict a_ref a_elem defaults withDomains] in C. apply core_inv in C. cbn. tauto.
Qed.
Lemma disc_inv f g o d cl st x : functionSpaceWith f (discArgs g o d cl st) = Some x ->
  c_kind (coreOf x) = DP /\ gridOf x = g /\ isBary x = false /\ discSpace x = Some x /\ superSpace x = Some x /\ c_segment (coreOf x) = seg d cl /\ c_order (coreOf x) = o.
Proof.
  intros H. destruct (dp_inv H (disc_kind g o d cl st)) as (c & C & ->). destruct (disc_dom g o d cl st) as (D1 & D2 & D3 & D4 & _). rewrite D1, D2, D3, D4 in *.
  apply core_inv in C. cbn. tauto.
Qed.
Lemma defaultDP f g o x : functionSpaceWith f (defaults g DP o) = Some x ->
  c_kind (coreOf x) = DP /\ c_grid (coreOf x) = g /\ gridOf x = g /\ isBary x = false /\ discSpace x = Some x /\ superSpace x = Some x /\ c_segment (coreOf x) = None /\ c_order (coreOf x) = o.
Proof.
  intros H. destruct (dp_inv H eq_refl) as (c & C & ->). cbn [a_grid a_kind a_order a_domains a_closed a_strict a_ref a_elem defaults withDomains] in C. apply core_inv in C. cbn in *. tauto.
Qed.
Lemma defaultP f g o x : functionSpaceWith f (defaults g P o) = Some x ->
  c_kind (coreOf x) = P /\ c_grid (coreOf x) = g /\ gridOf x = g /\ isBary x = false /\ c_segment (coreOf x) = None /\ c_order (coreOf x) = o.
Proof.
  intros H. destruct (p_inv H eq_refl) as (c & d & C & _ & ->). cbn [a_grid a_kind a_order a_domains a_closed a_strict a_ref a_elem defaults withDomains] in C. apply core_inv in C. cbn in *. tauto.
Qed.
Lemma defaultVec f g k x : vectorKind k = true -> functionSpaceWith f (defaults g k 0) = Some x ->
  c_kind (coreOf x) = k /\ c_grid (coreOf x) = g /\ gridOf x = g /\ isBary x = false /\ superSpace x = Some x /\ c_segment (coreOf x) = None /\ c_order (coreOf x) = 0.
Proof.
  intros V H. destruct (vec_inv (a := defaults g k 0) H V) as (_ & c & d & h & C & _ & _ & ->). cbn [a_grid a_kind a_order a_domains a_closed a_strict a_ref a_elem defaults withDomains] in C. apply core_inv in C. cbn in *. tauto.
Qed.
Lemma baryPoly_inv fs k k0 a s : mkBaryPoly fs k k0 a = Some s ->
  exists c n d, coreSpace (a_grid a) k (a_order a) None true false true false = Some c /\ fs (defaults (a_grid a) k0 (a_order a)) = Some n /\
    fs (defaults (Refined (a_grid a)) DP (a_order a)) = Some d /\ s = PSpace c (a_order a) (Other n) (Other d) (Other d) Nothing true (Refined (a_grid a)) (Some a).
Proof. unfold mkBaryPoly. intros H. inv H. injection H as <-. eauto 10. Qed.
Lemma baryVec_inv fs k k0 hd a s : mkBaryVector fs k k0 hd a = Some s ->
  exists c n d p h, coreSpace (a_grid a) k 0 None true false true false = Some c /\ fs (defaults (a_grid a) k0 0) = Some n /\
    fs (defaults (Refined (a_grid a)) DP 1) = Some d /\ fs (defaults (Refined (a_grid a)) k0 0) = Some p /\
    match hd with None => h = Nothing | Some k' => exists x, h = Other x /\ fs (defaults (a_grid a) k' 0) = Some x end /\
    s = PSpace c 0 (Other n) (Other d) (Other p) h true (Refined (a_grid a)) (Some a).
Proof.
  unfold mkBaryVector. intros H. destruct hd; inv H; try match goal with C : Some Nothing = Some _ |- _ => injection C as <- end; injection H as <-; eauto 20.
Qed.
Lemma bc_inv fs g key s : mkBC fs g key = Some s ->
  exists c d p, coreSpace g BC 0 None true false true false = Some c /\ fs (defaults (Refined g) DP 1) = Some d /\ fs (defaults (Refined g) RWG 0) = Some p /\
    s = PSpace c 0 Nothing (Other d) (Other p) Nothing true (Refined g) key.
Proof. unfold mkBC. intros H. inv H. injection H as <-. eauto 10. Qed.
Lemma rbc_inv fs a s : mkRBC fs a = Some s ->
  exists c d p h, coreSpace (a_grid a) RBC 0 None true false true false = Some c /\ fs (defaults (Refined (a_grid a)) DP 1) = Some d /\ fs (defaults (Refined (a_grid a)) SNC 0) = Some p /\
    mkBC fs (a_grid a) None = Some h /\ s = PSpace c 0 Nothing (Other d) (Other p) (Other h) true (Refined (a_grid a)) (Some a).
Proof.
  unfold mkRBC. intros H. apply obind_some in H as (c & C & H). apply obind_some in H as (d & D & H). apply obind_some in H as (p & Pp & H). apply obind_some in H as (h & Hh & H).
  apply call_some in D as (d' & D & ->). apply call_some in Pp as (p' & Pp & ->). injection H as <-. eauto 15.
Qed.
Lemma dual_inv fs a s : mkDual fs a = Some s ->
  exists c d, coreSpace (a_grid a) DUAL 0 None true false true false = Some c /\ fs (defaults (Refined (a_grid a)) DP 0) = Some d /\
    s = PSpace c 0 Nothing (Other d) (Other d) Nothing true (Refined (a_grid a)) (Some a).
Proof. unfold mkDual. intros H. inv H. injection H as <-. eauto 10. Qed.
Lemma baryKind f g k x : (k = BRT \/ k = BRWG) -> functionSpaceWith f (defaults g k 0) = Some x ->
  c_kind (coreOf x) = k /\ c_grid (coreOf x) = g /\ gridOf x = Refined g /\ c_segment (coreOf x) = None.
Proof.
  intros K H. destruct f; [discriminate|]. cbn [functionSpaceWith] in H. unfold dispatch in H. destruct K as [-> | ->]; cbn [a_kind defaults a_order Z.ltb Z.compare] in H;
  apply baryVec_inv in H as (c & n & d & p & h & C & _ & _ & _ & _ & ->); cbn [a_grid a_kind a_order a_domains a_closed a_strict a_ref a_elem defaults withDomains] in C; apply core_inv in C; cbn in *; tauto.
Qed.

Theorem attributes_ok f a s : functionSpaceWith f a = Some s -> attributesOk a s.
Proof.
  intros H. destruct (a_kind a) eqn:K.
  (* P *)
  1: { destruct (p_inv H K) as (c & d & C & D & ->). apply core_inv in C. apply disc_inv in D. cbn in D.
       split; rewrite ?K; cbn; auto; [exists d|exists d|split; auto; eexists; split; [reflexivity|]]; cbn; repeat split; tauto || (intuition congruence). }
  (* DP *)
  1: { destruct (dp_inv H K) as (c & C & ->). apply core_inv in C.
       split; rewrite ?K; cbn; auto; [eexists; split; [reflexivity|]..|split; auto; eexists; split; [reflexivity|]]; cbn; repeat split; tauto. }
  (* vector spaces *)
  1-4: (assert (V : vectorKind (a_kind a) = true) by (rewrite K; reflexivity); destruct (vec_inv H V) as (_ & c & d & h & C & D & Hh & ->); apply core_inv in C; apply disc_inv in D;
       rewrite K in *; cbn [partner] in Hh;
       split; rewrite ?K; cbn; auto;
       [eexists; split; [reflexivity|]; cbn; repeat split; tauto
       |exists d; cbn; repeat split; tauto || (intuition congruence)
       |split; auto; eexists; split; [reflexivity|]; cbn; repeat split; tauto
       |try (destruct Hh as (x & -> & X); eapply hdiv_inv in X; [|instantiate (1 := a_kind a); rewrite K; reflexivity|rewrite K; reflexivity]; exists x; cbn; repeat split; tauto || (intuition congruence)); try (rewrite Hh; reflexivity)]).
  all: destruct f; [discriminate H|]; cbn [functionSpaceWith] in H; unfold dispatch in H; rewrite K in H.
  all: try (destruct (Z.ltb_spec 0 (a_order a)); [discriminate H|]).
  (* BP, BDP *)
  1-2: (apply baryPoly_inv in H as (c & n & d & C & N & D & ->); apply core_inv in C; cbn [seg] in C; apply defaultDP in D; (apply defaultP in N || apply defaultDP in N);
       split; rewrite ?K; cbn; auto;
       [exists d; cbn; repeat split; tauto || (intuition congruence) | exists d; cbn; repeat split; tauto || (intuition congruence)
       | split; auto; exists n; cbn; repeat split; tauto || (intuition congruence)]).
  (* BRT .. BRWG *)
  1-4: (apply baryVec_inv in H as (c & n & d & p & h & C & N & D & Sp & Hh & ->); apply core_inv in C; cbn [seg] in C; apply defaultDP in D; apply defaultVec in N; [|reflexivity]; apply defaultVec in Sp; [|reflexivity];
       split; rewrite ?K; cbn; auto;
       [exists p; cbn; repeat split; tauto || (intuition congruence) | exists d; cbn; repeat split; tauto || (intuition congruence)
       | split; auto; exists n; cbn; repeat split; tauto || (intuition congruence)
       | try (destruct Hh as (x & -> & X); apply baryKind in X; [|auto]; exists x; cbn; repeat split; tauto || (intuition congruence)); try (rewrite Hh; reflexivity)]).
  (* DUAL *)
  1: { apply dual_inv in H as (c & d & C & D & ->). apply core_inv in C. cbn [seg] in C. apply defaultDP in D. split; rewrite ?K; cbn; auto; exists d; cbn; repeat split; tauto || (intuition congruence). }
  (* BC *)
  1: { apply bc_inv in H as (c & d & p & C & D & Sp & ->). apply core_inv in C. cbn [seg] in C. apply defaultDP in D. apply defaultVec in Sp; [|reflexivity].
       split; rewrite ?K; cbn; auto; [exists p|exists d]; cbn; repeat split; tauto || (intuition congruence). }
  (* RBC *)
  1: { apply rbc_inv in H as (c & d & p & h & C & D & Sp & Hh & ->). apply core_inv in C. cbn [seg] in C. apply defaultDP in D. apply defaultVec in Sp; [|reflexivity].
       apply bc_inv in Hh as (c' & d' & p' & C' & _ & _ & ->). apply core_inv in C'. cbn [seg] in C'.
       split; rewrite ?K; cbn; auto; [exists p|exists d|eexists; split; [reflexivity|]]; cbn; repeat split; tauto || (intuition congruence). }
  discriminate H.
Qed.

Lemma requested_ok f a s : functionSpaceWith f a = Some s -> 0 <= a_order a -> a_domains a = None \/ restrictable (a_kind a) = true -> asRequested a s /\ supported a.
Proof.
  intros H O D. unfold asRequested, supported. fold (seg (a_domains a) (a_closed a)). destruct (a_kind a) eqn:K.
  1: { destruct (p_inv H K) as (c & d & C & _ & ->). apply core_inv in C. cbn [coreOf orderOf]. cbn [orders] in *. repeat split; try tauto; try lia; try discriminate. }
  1: { destruct (dp_inv H K) as (c & C & ->). apply core_inv in C. cbn [coreOf orderOf]. cbn [orders] in *. repeat split; try tauto; try lia; try discriminate. }
  1-4: (assert (V : vectorKind (a_kind a) = true) by (rewrite K; reflexivity); destruct (vec_inv H V) as (L & c & d & h & C & _ & _ & ->); apply core_inv in C; rewrite K in C; cbn [coreOf orderOf];
       assert (E : a_order a = 0) by lia; rewrite E; cbn [orders]; repeat split; try tauto; try discriminate).
  all: destruct f; [discriminate H|]; cbn [functionSpaceWith] in H; unfold dispatch in H; rewrite K in H.
  all: destruct D as [D|D]; [|discriminate D]; rewrite D; cbn [seg].
  all: try (destruct (Z.ltb_spec 0 (a_order a)); [discriminate H|]; assert (E : a_order a = 0) by lia; rewrite E).
  1-2: (apply baryPoly_inv in H as (c & n & d & C & _ & _ & ->); apply core_inv in C; cbn [seg coreOf orderOf orders] in *; repeat split; try tauto; try discriminate).
  1-4: (apply baryVec_inv in H as (c & n & d & p & h & C & _ & _ & _ & _ & ->); apply core_inv in C; cbn [seg coreOf orderOf orders] in *; repeat split; try tauto; try discriminate).
  1: { apply dual_inv in H as (c & d & C & _ & ->). apply core_inv in C. cbn [seg coreOf orderOf orders] in *; repeat split; try tauto; try discriminate. }
  1: { apply bc_inv in H as (c & d & p & C & _ & _ & ->). apply core_inv in C. cbn [seg coreOf orderOf orders] in *; repeat split; try tauto; try discriminate. }
  1: { apply rbc_inv in H as (c & d & p & h & C & _ & _ & _ & ->). apply core_inv in C. cbn [seg coreOf orderOf orders] in *; repeat split; try tauto; try discriminate. }
  discriminate H.
Qed.
(** success *)
Lemma dp_succeeds f a : a_kind a = DP -> orders DP (a_order a) -> a_ref a = true \/ a_elem a = true -> exists s, functionSpaceWith (S f) a = Some s.
Proof.
  intros K O M. cbn [functionSpaceWith]. unfold dispatch, mkDP. rewrite K. destruct (@core_ok (a_grid a) DP (a_order a) (a_domains a) (a_closed a) false (a_ref a) (a_elem a) O (or_intror eq_refl) M) as (c & ->). cbn. eauto.
Qed.
Lemma disc_succeeds f g o d cl st : orders DP o -> exists s, functionSpaceWith (S f) (discArgs g o d cl st) = Some s.
Proof. intros O. destruct (disc_dom g o d cl st) as (_ & _ & _ & D4 & M). apply dp_succeeds; [apply disc_kind|rewrite D4; auto|auto]. Qed.
Lemma p_succeeds f a : a_kind a = P -> orders P (a_order a) -> exists s, functionSpaceWith (S (S f)) a = Some s.
Proof.
  intros K O. change (functionSpaceWith (S (S f)) a) with (dispatch (functionSpaceWith (S f)) a). unfold dispatch, mkP. rewrite K.
  destruct (@core_ok (a_grid a) P (a_order a) (a_domains a) (a_closed a) (a_strict a) true (a_elem a) O (or_intror eq_refl) (or_introl eq_refl)) as (c & ->). cbn [obind].
  destruct (@disc_succeeds f (a_grid a) (a_order a) (a_domains a) (a_closed a) (a_strict a)) as (d & D); [cbn in *; lia|]. unfold call. rewrite D. cbn. eauto.
Qed.
Lemma vec_succeeds f a : vectorKind (a_kind a) = true -> a_order a = 0 -> exists s, functionSpaceWith (S (S (S f))) a = Some s.
Proof.
  assert (Plain : forall f a k, a_kind a = k -> (k = RT \/ k = RWG) -> a_order a = 0 -> exists s, functionSpaceWith (S (S f)) a = Some s).
  { clear f a. intros f a k K E O. change (functionSpaceWith (S (S f)) a) with (dispatch (functionSpaceWith (S f)) a). unfold dispatch, mkVector.
    destruct (@core_ok (a_grid a) k 0 (a_domains a) (a_closed a) false true false) as (c & C); [destruct E as [-> | ->]; reflexivity|right; destruct E as [-> | ->]; reflexivity|auto|].
    destruct (@disc_succeeds f (a_grid a) 1 (a_domains a) (a_closed a) false) as (d & D); [cbn; lia|]. unfold call. rewrite K, O. destruct E as [-> | ->]; cbn [Z.ltb Z.compare]; rewrite C; cbn [obind]; rewrite D; cbn; eauto. }
  intros V O. destruct (a_kind a) eqn:K; try discriminate V.
  - apply (Plain (S f) a RT); auto.
  - change (functionSpaceWith (S (S (S f))) a) with (dispatch (functionSpaceWith (S (S f))) a). unfold dispatch, mkVector. rewrite K, O. cbn [Z.ltb Z.compare].
    destruct (@core_ok (a_grid a) NC 0 (a_domains a) (a_closed a) false true false eq_refl (or_intror eq_refl) (or_introl eq_refl)) as (c & ->). cbn [obind].
    destruct (@disc_succeeds (S f) (a_grid a) 1 (a_domains a) (a_closed a) false) as (d & D); [cbn; lia|]. unfold call. rewrite D. cbn [obind option_map].
    destruct (Plain f (withDomains (a_grid a) RT 0 (a_domains a) (a_closed a)) RT eq_refl (or_introl eq_refl) eq_refl) as (h & ->). cbn. eauto.
  - change (functionSpaceWith (S (S (S f))) a) with (dispatch (functionSpaceWith (S (S f))) a). unfold dispatch, mkVector. rewrite K, O. cbn [Z.ltb Z.compare].
    destruct (@core_ok (a_grid a) SNC 0 (a_domains a) (a_closed a) false true false eq_refl (or_intror eq_refl) (or_introl eq_refl)) as (c & ->). cbn [obind].
    destruct (@disc_succeeds (S f) (a_grid a) 1 (a_domains a) (a_closed a) false) as (d & D); [cbn; lia|]. unfold call. rewrite D. cbn [obind option_map].
    destruct (Plain f (withDomains (a_grid a) RWG 0 (a_domains a) (a_closed a)) RWG eq_refl (or_intror eq_refl) eq_refl) as (h & ->). cbn. eauto.
  - apply (Plain (S f) a RWG); auto.
Qed.
Lemma baryVec_succeeds f k k0 hd a : vectorKind k0 = true -> orders k 0 ->
  match hd with None => True | Some k' => exists s, functionSpaceWith (S (S (S f))) (defaults (a_grid a) k' 0) = Some s end ->
  exists s, mkBaryVector (functionSpaceWith (S (S (S f)))) k k0 hd a = Some s.
Proof.
  intros V O Hh. unfold mkBaryVector.
  destruct (@core_ok (a_grid a) k 0 None true false true false O (or_introl eq_refl) (or_introl eq_refl)) as (c & ->). cbn [obind]. unfold call.
  destruct (@vec_succeeds f (defaults (a_grid a) k0 0) V eq_refl) as (n & ->).
  destruct (@dp_succeeds (S (S f)) (defaults (Refined (a_grid a)) DP 1) eq_refl) as (d & ->); [cbn; lia|auto|].
  destruct (@vec_succeeds f (defaults (Refined (a_grid a)) k0 0) V eq_refl) as (p & ->). cbn [obind option_map].
  destruct hd as [k'|]; [destruct Hh as (h & ->)|]; cbn; eauto.
Qed.
Lemma baryRT_succeeds f g k : (k = BRT \/ k = BRWG) -> exists s, functionSpaceWith (S (S (S (S f)))) (defaults g k 0) = Some s.
Proof.
  intros E. change (functionSpaceWith (S (S (S (S f)))) (defaults g k 0)) with (dispatch (functionSpaceWith (S (S (S f)))) (defaults g k 0)). unfold dispatch.
  destruct E as [-> | ->]; cbn [a_kind defaults a_order Z.ltb Z.compare]; apply baryVec_succeeds; reflexivity || exact I.
Qed.
Lemma bc_succeeds f g key : exists s, mkBC (functionSpaceWith (S (S (S f)))) g key = Some s.
Proof.
  unfold mkBC. destruct (@core_ok g BC 0 None true false true false eq_refl (or_introl eq_refl) (or_introl eq_refl)) as (c & ->). cbn [obind]. unfold call.
  destruct (@dp_succeeds (S (S f)) (defaults (Refined g) DP 1) eq_refl) as (d & ->); [cbn; lia|auto|].
  destruct (@vec_succeeds f (defaults (Refined g) RWG 0) eq_refl eq_refl) as (p & ->). cbn. eauto.
Qed.
Theorem supported_succeeds a : supported a -> exists s, functionSpace a = Some s.
Proof.
  intros (O & _ & M). unfold functionSpace. destruct (a_kind a) eqn:K.
  1: { apply p_succeeds; auto. }
  1: { apply dp_succeeds; auto. }
  1-4: (apply vec_succeeds; [rewrite K; reflexivity|exact O]).
  all: cbn [orders] in O; try (exfalso; exact O); change (functionSpaceWith 5 a) with (dispatch (functionSpaceWith 4) a); unfold dispatch; rewrite K, ?O; cbn [Z.ltb Z.compare].
  - unfold mkBaryPoly. rewrite O. destruct (@core_ok (a_grid a) BP 1 None true false true false eq_refl (or_introl eq_refl) (or_introl eq_refl)) as (c & ->). cbn [obind]. unfold call.
    destruct (@p_succeeds 2 (defaults (a_grid a) P 1) eq_refl) as (n & ->); [cbn; lia|].
    destruct (@dp_succeeds 3 (defaults (Refined (a_grid a)) DP 1) eq_refl) as (d & ->); [cbn; lia|auto|]. cbn. eauto.
  - unfold mkBaryPoly. rewrite O. destruct (@core_ok (a_grid a) BDP 1 None true false true false eq_refl (or_introl eq_refl) (or_introl eq_refl)) as (c & ->). cbn [obind]. unfold call.
    destruct (@dp_succeeds 3 (defaults (a_grid a) DP 1) eq_refl) as (n & ->); [cbn; lia|auto|].
    destruct (@dp_succeeds 3 (defaults (Refined (a_grid a)) DP 1) eq_refl) as (d & ->); [cbn; lia|auto|]. cbn. eauto.
  - apply baryVec_succeeds; reflexivity || exact I.
  - apply baryVec_succeeds; try reflexivity. apply baryRT_succeeds. auto.
  - apply baryVec_succeeds; try reflexivity. apply baryRT_succeeds. auto.
  - apply baryVec_succeeds; reflexivity || exact I.
  - unfold mkDual. destruct (@core_ok (a_grid a) DUAL 0 None true false true false eq_refl (or_introl eq_refl) (or_introl eq_refl)) as (c & ->). cbn [obind]. unfold call.
    destruct (@dp_succeeds 3 (defaults (Refined (a_grid a)) DP 0) eq_refl) as (d & ->); [cbn; lia|auto|]. cbn. eauto.
  - apply (bc_succeeds 1).
  - unfold mkRBC. destruct (@core_ok (a_grid a) RBC 0 None true false true false eq_refl (or_introl eq_refl) (or_introl eq_refl)) as (c & ->). cbn [obind]. unfold call at 1 2.
    destruct (@dp_succeeds 3 (defaults (Refined (a_grid a)) DP 1) eq_refl) as (d & ->); [cbn; lia|auto|].
    destruct (@vec_succeeds 1 (defaults (Refined (a_grid a)) SNC 0) eq_refl eq_refl) as (p & ->). cbn [obind option_map].
    destruct (@bc_succeeds 1 (a_grid a) None) as (h & ->). cbn. eauto.
Qed.
