From Coq Require Import List Bool Arith Lia FunctionalExtensionality.
Import ListNotations.
From Verif Require Import Base ArrayModel NumIntModel NumIntSpec.
Set Implicit Arguments.
Unset Strict Implicit.

Section Proofs.
Variables V B T Kv M Sh : Type.
Variable s : setup V B T Kv M Sh.
Hypothesis H : honest s.
Notation complete := (@complete V).

Lemma has_In d f : In f d -> has d f = true.
Proof. intros I. unfold has. apply existsb_exists. exists f. split; [exact I|]. now destruct f. Qed.
Definition agrees (deps : depSet) (g : gdata V) (whole : field -> V) : Prop := forall x, In x deps -> g x = Some (whole x).
Lemma getData_agrees deps whole (d : gdata V) : agrees deps (getData deps whole d) whole.
Proof. intros x I. unfold getData. now rewrite has_In. Qed.
Lemma integral_local t r te re a b : agrees (testGeomDeps s) t te -> agrees (trialGeomDeps s) r re ->
  integral s t r (testTrans s a t) (trialTrans s b r) (kernels s t r) =
  integral s (complete te) (complete re) (testTrans s a (complete te)) (trialTrans s b (complete re)) (kernels s (complete te) (complete re)).
Proof.
  intros A C. destruct H as (H1 & H2 & H3 & H4 & H5 & H6). unfold testGeomDeps, trialGeomDeps in *.
  rewrite (H1 a t (complete te)) by (intros x I; apply A; apply in_or_app; now left).
  rewrite (H2 b r (complete re)) by (intros x I; apply C; apply in_or_app; now left).
  rewrite (H3 r t (complete te)) by (intros x I; apply A; apply in_or_app; right; apply in_or_app; now left).
  rewrite (H4 (complete te) r (complete re)) by (intros x I; apply C; apply in_or_app; right; apply in_or_app; now left).
  rewrite (H5 r _ _ _ t (complete te)) by (intros x I; apply A; apply in_or_app; right; apply in_or_app; now right).
  rewrite (H6 (complete te) _ _ _ r (complete re)) by (intros x I; apply C; apply in_or_app; right; apply in_or_app; now right).
  reflexivity.
Qed.
Definition valid (it : integrator V) (n m : nat) : Prop := it = makeIntegrator s (i_cached it) n m.
Lemma testData_ok it n m e l : valid it n m -> e < n -> exists d l', testData s it e l = Ok (d, l') /\ agrees (testGeomDeps s) d (testElement s e).
Proof.
  intros W E. unfold testData. rewrite W. destruct (i_cached it) eqn:C; cbn.
  - rewrite nth_error_map. rewrite (nth_error_nth' _ 0) by (rewrite seq_length; exact E). rewrite seq_nth by exact E. cbn. do 2 eexists. split; [reflexivity|]. apply getData_agrees.
  - do 2 eexists. split; [reflexivity|]. apply getData_agrees.
Qed.
Lemma trialData_ok it n m e l : valid it n m -> e < m -> exists d l', trialData s it e l = Ok (d, l') /\ agrees (trialGeomDeps s) d (trialElement s e).
Proof.
  intros W E. unfold trialData. rewrite W. destruct (i_cached it) eqn:C; cbn.
  - rewrite nth_error_map. rewrite (nth_error_nth' _ 0) by (rewrite seq_length; exact E). rewrite seq_nth by exact E. cbn. do 2 eexists. split; [reflexivity|]. apply getData_agrees.
  - do 2 eexists. split; [reflexivity|]. apply getData_agrees.
Qed.
Lemma loopTestTrial_ok it n m f g tb rb : valid it n m -> agrees (trialGeomDeps s) g (trialElement s f) -> forall es l, Forall (fun e => e < n) es ->
  exists l', loopTestTrial s it tb g (trialTrans s rb g) es l =
    Ok (map (fun e => integral s (complete (testElement s e)) (complete (trialElement s f)) (testTrans s tb (complete (testElement s e))) (trialTrans s rb (complete (trialElement s f)))
                               (kernels s (complete (testElement s e)) (complete (trialElement s f)))) es, l').
Proof.
  intros W A. induction es as [|e es IH]; intros l F; [now exists l|].
  inversion F as [|? ? E F']; subst. cbn [loopTestTrial]. destruct (testData_ok l W E) as (d & l1 & -> & D). cbn [bind fst snd].
  destruct (IH l1 F') as (l2 & ->). cbn [bind fst snd map]. exists l2. now rewrite (integral_local tb rb D A).
Qed.
Lemma loopTrialTest_ok it n m f g tb rb : valid it n m -> agrees (testGeomDeps s) g (testElement s f) -> forall es l, Forall (fun e => e < m) es ->
  exists l', loopTrialTest s it rb g (testTrans s tb g) es l =
    Ok (map (fun e => integral s (complete (testElement s f)) (complete (trialElement s e)) (testTrans s tb (complete (testElement s f))) (trialTrans s rb (complete (trialElement s e)))
                               (kernels s (complete (testElement s f)) (complete (trialElement s e)))) es, l').
Proof.
  intros W A. induction es as [|e es IH]; intros l F; [now exists l|].
  inversion F as [|? ? E F']; subst. cbn [loopTrialTest]. destruct (trialData_ok l W E) as (d & l1 & -> & D). cbn [bind fst snd].
  destruct (IH l1 F') as (l2 & ->). cbn [bind fst snd map]. exists l2. now rewrite (integral_local tb rb A D).
Qed.
Lemma loopPairs_ok it n m tb rb : valid it n m -> forall ps l, Forall (fun p => fst p < n /\ snd p < m) ps ->
  exists l', loopPairs s it tb rb ps l =
    Ok (map (fun p => integral s (complete (testElement s (fst p))) (complete (trialElement s (snd p))) (testTrans s tb (complete (testElement s (fst p)))) (trialTrans s rb (complete (trialElement s (snd p))))
                               (kernels s (complete (testElement s (fst p))) (complete (trialElement s (snd p))))) ps, l').
Proof.
  intros W. induction ps as [|[e f] ps IH]; intros l F; [now exists l|].
  inversion F as [|? ? [E E'] F']; subst. cbn [fst snd] in *. cbn [loopPairs]. destruct (testData_ok l W E) as (d & l1 & -> & D). cbn [bind fst snd].
  destruct (trialData_ok l1 W E') as (d' & l2 & -> & D'). cbn [bind fst snd].
  destruct (IH l2 F') as (l3 & ->). cbn [bind fst snd map]. exists l3. now rewrite (integral_local tb rb D D').
Qed.
End Proofs.

(** ---- the basis data cache ---- *)
Section Cache.
Variables Sh B : Type.
Variable sh_eqb : Sh -> Sh -> bool.
Variable eval : Sh -> B.
Hypothesis eqb_ok : forall a b, sh_eqb a b = true <-> a = b.
Notation find := (mapFind sh_eqb).

Lemma find_In c k p : find c k = Some p -> In (k, p) c.
Proof. induction c as [|[k' p'] c IH]; cbn; [discriminate|]. destruct (sh_eqb k k') eqn:E; [|intros F; right; now apply IH]. apply eqb_ok in E. subst. intros [= ->]. now left. Qed.
Lemma find_None c k p : find c k = None -> ~ In (k, p) c.
Proof.
  induction c as [|[k' p'] c IH]; cbn; [auto|]. destruct (sh_eqb k k') eqn:E; [discriminate|]. intros F [G|G]; [|now apply IH in G].
  injection G as -> ->. assert (sh_eqb k k = true) by now apply eqb_ok. congruence.
Qed.
Lemma find_app c k p k' : find (c ++ [(k', p)]) k = match find c k with Some x => Some x | None => if sh_eqb k k' then Some p else None end.
Proof. induction c as [|[a b] c IH]; cbn; [reflexivity|]. destruct (sh_eqb k a); [reflexivity|]. exact IH. Qed.

Record cinv (c : cstate Sh B) : Prop := {
  iv_keys : NoDup (map fst (c_map c));
  iv_ptrs : NoDup (map snd (c_map c));
  iv_live : forall k p, In (k, p) (c_map c) -> c_heap c p = Some (eval k) /\ p < c_next c;
  iv_pend : forall i k p, c_threads c i = Pending k p -> c_heap c p = Some (eval k) /\ p < c_next c /\ ~ In p (map snd (c_map c));
  iv_pend2 : forall i j k k' p, c_threads c i = Pending k p -> c_threads c j = Pending k' p -> i = j;
  iv_ret : forall k p, In (k, p) (c_returned c) -> In (k, p) (c_map c);
  iv_heap : forall p b, c_heap c p = Some b -> In p (map snd (c_map c)) \/ exists i k, c_threads c i = Pending k p;
  iv_fresh : forall p, c_next c <= p -> c_heap c p = None }.
Lemma cinv_init : cinv (cinit Sh B).
Proof. constructor; cbn; try constructor; try tauto; try discriminate. Qed.
Lemma NoDup_snoc {A} (l : list A) a : NoDup l -> ~ In a l -> NoDup (l ++ [a]).
Proof.
  intros N I. induction l as [|b l IH]; cbn; [constructor; [auto|constructor]|]. inversion N; subst. constructor.
  - rewrite in_app_iff. cbn. intros [G|[G|[]]]; [auto|]. subst. apply I. now left.
  - apply IH; [assumption|]. intros G. apply I. now right.
Qed.
Lemma upd_same {A} (f : nat -> A) i a : upd f i a i = a. Proof. unfold upd. now rewrite Nat.eqb_refl. Qed.
Lemma upd_other {A} (f : nat -> A) i a j : j <> i -> upd f i a j = f j. Proof. intros N. unfold upd. now apply Nat.eqb_neq in N as ->. Qed.
Lemma cinv_step c c' : cinv c -> cstep sh_eqb eval c c' -> cinv c'.
Proof.
  intros I St. destruct I as [K P L Q Q2 R G F]. inversion St as [c0 i k p E0 E1|c0 i k E0 E1|c0 i k p E0 E1|c0 i k p p' E0 E1]; subst; clear St.
  - constructor; cbn; auto. intros k0 p0 [E|E]; [injection E as <- <-; now apply find_In|auto].
  - constructor; cbn; auto.
    + intros k0 p0 I0. destruct (L _ _ I0) as [A A']. split; [|lia]. rewrite upd_other by lia. exact A.
    + intros j k0 p0. destruct (Nat.eq_dec j i) as [->|N]; [rewrite upd_same|rewrite upd_other by exact N].
      * intros [= <- <-]. rewrite upd_same. split; [reflexivity|]. split; [lia|]. intros I0. apply in_map_iff in I0. destruct I0 as ([a b] & E & I0). cbn in E. subst. apply L in I0. lia.
      * intros E. destruct (Q _ _ _ E) as (A & A' & A''). split; [rewrite upd_other by lia; exact A|]. split; [lia|exact A''].
    + intros j j' k0 k1 p0. destruct (Nat.eq_dec j i) as [->|N]; [rewrite upd_same|rewrite upd_other by exact N]; (destruct (Nat.eq_dec j' i) as [->|N']; [rewrite upd_same|rewrite upd_other by exact N']).
      * reflexivity.
      * intros [= <- <-] E. apply Q in E. lia.
      * intros E [= <- <-]. apply Q in E. lia.
      * apply Q2.
    + intros p0 b. destruct (Nat.eq_dec p0 (c_next c)) as [->|N]; [rewrite upd_same|rewrite upd_other by exact N].
      * intros _. right. exists i, k. now rewrite upd_same.
      * intros E. destruct (G _ _ E) as [A|(j & k0 & A)]; [now left|]. right. exists j, k0. rewrite upd_other; [exact A|]. intros ->. congruence.
    + intros p0 N. rewrite upd_other by lia. apply F. lia.
  - destruct (Q _ _ _ E0) as (A & A' & A''). constructor; cbn; auto.
    + rewrite map_app. cbn. apply NoDup_snoc; [exact K|]. intros I0. apply in_map_iff in I0. destruct I0 as ([a b] & E & I0). cbn in E. subst. now apply (find_None E1) in I0.
    + rewrite map_app. cbn. now apply NoDup_snoc.
    + intros k0 p0 I0. apply in_app_iff in I0. destruct I0 as [I0|[E|[]]]; [now apply L|]. injection E as <- <-. auto.
    + intros j k0 p0. destruct (Nat.eq_dec j i) as [->|N]; [rewrite upd_same; discriminate|rewrite upd_other by exact N].
      intros E. destruct (Q _ _ _ E) as (X & X' & X''). split; [exact X|]. split; [exact X'|]. rewrite map_app, in_app_iff. cbn. intros [Y|[Y|[]]]; [auto|]. subst p0. apply N. exact (Q2 _ _ _ _ _ E E0).
    + intros j j' k0 k1 p0. destruct (Nat.eq_dec j i) as [->|N]; [rewrite upd_same; discriminate|rewrite upd_other by exact N].
      destruct (Nat.eq_dec j' i) as [->|N']; [rewrite upd_same; discriminate|rewrite upd_other by exact N']. apply Q2.
    + intros k0 p0 [E|E]; apply in_app_iff; [right; left; now injection E as <- <-|left; auto].
    + intros p0 b E. rewrite map_app, in_app_iff. cbn. destruct (G _ _ E) as [X|(j & k0 & X)]; [auto|].
      destruct (Nat.eq_dec j i) as [->|N]; [left; right; left; congruence|]. right. exists j, k0. now rewrite upd_other.
  - destruct (Q _ _ _ E0) as (A & A' & A''). constructor; cbn; auto.
    + intros k0 p0 I0. destruct (L _ _ I0) as [X X']. split; [|exact X']. rewrite upd_other; [exact X|]. intros ->. apply A''. apply in_map_iff. now exists (k0, p).
    + intros j k0 p0. destruct (Nat.eq_dec j i) as [->|N]; [rewrite upd_same; discriminate|rewrite upd_other by exact N].
      intros E. destruct (Q _ _ _ E) as (X & X' & X''). split; [|auto]. rewrite upd_other; [exact X|]. intros ->. apply N. exact (Q2 _ _ _ _ _ E E0).
    + intros j j' k0 k1 p0. destruct (Nat.eq_dec j i) as [->|N]; [rewrite upd_same; discriminate|rewrite upd_other by exact N].
      destruct (Nat.eq_dec j' i) as [->|N']; [rewrite upd_same; discriminate|rewrite upd_other by exact N']. apply Q2.
    + intros k0 p0 [E|E]; [injection E as <- <-; now apply find_In|auto].
    + intros p0 b. destruct (Nat.eq_dec p0 p) as [->|N]; [rewrite upd_same; discriminate|rewrite upd_other by exact N].
      intros E. destruct (G _ _ E) as [X|(j & k0 & X)]; [auto|]. right. exists j, k0. rewrite upd_other; [exact X|]. intros ->. congruence.
    + intros p0 N. destruct (Nat.eq_dec p0 p) as [->|N']; [now rewrite upd_same|rewrite upd_other by exact N']. now apply F.
Qed.
Lemma creach_inv c : creach sh_eqb eval c -> cinv c.
Proof. induction 1 as [|c c' R IH St]; [apply cinv_init|]. exact (cinv_step IH St). Qed.
Lemma destroy_ok (m : list (Sh * nat)) : NoDup (map snd m) -> forall heap, (forall k p, In (k, p) m -> heap p <> None) -> exists h', destroy (B := B) m heap = Ok h' /\ forall p, h' p = if existsb (Nat.eqb p) (map snd m) then None else heap p.
Proof.
  induction m as [|[k p] m IH]; intros N heap L; [exists heap; split; [reflexivity|auto]|].
  cbn [destroy]. inversion N as [|? ? N1 N2]; subst. destruct (heap p) eqn:E; [|exfalso; apply (L k p); [now left|exact E]].
  destruct (IH N2 (upd heap p None)) as (h' & E' & S).
  { intros k0 p0 I0. rewrite upd_other; [apply (L k0); now right|]. intros ->. apply N1. apply in_map_iff. now exists (k0, p). }
  exists h'. split; [exact E'|]. intros q. rewrite S. cbn. destruct (Nat.eqb_spec q p) as [->|Nq]; cbn; [rewrite upd_same; now destruct (existsb _ _)|]. now rewrite upd_other.
Qed.
End Cache.
