(** C164, C165: connectivity matrices, and the singular part of integral operators. *)
From Coq Require Import ZArith List Bool Arith Lia.
Import ListNotations.
From Verif Require Import Base AsmModel AsmSpec AsmProofs SingModel SingSpec SingProofs.
Set Implicit Arguments.
Unset Strict Implicit.

(** C164: the entry of a connectivity matrix is 1 if the vertex (edge) belongs to the element and 0 otherwise *)
Theorem C164_connectivity : forall count els, (forall t a, In t els -> In a (subs t) -> a < count) -> (forall t, In t els -> NoDup (subs t)) ->
  exists m, connectivity count els = Some m /\ m_rows m = count /\ m_cols m = length els /\
    forall v e t, nth_error els e = Some t -> (In v (subs t) -> m_at m v e = 1%Z) /\ (~ In v (subs t) -> m_at m v e = 0%Z).
Proof.
  intros count els H ND. destruct (connectivity_ok H) as (m & E & R & C & At). exists m. split; [exact E|]. split; [exact R|]. split; [exact C|].
  intros v e t Et. rewrite (At v e t Et). split; intros I.
  - apply (NoDup_count_occ' Nat.eq_dec) with (x := v) in I; [now rewrite I|]. apply ND. eapply nth_error_In; eauto.
  - apply (count_occ_not_In Nat.eq_dec) in I. now rewrite I.
Qed.

(** C165: the singular part of an operator on two spaces with the same grid has the entries of the Galerkin matrix for the dofs
    whose supports touch, and zeros elsewhere, in whichever order Python's sets are traversed; if the grids differ it is zero *)
Theorem C165_singular_part : forall (K : star_ring) (T U : space K) nv els A unique, g2lInverse T -> g2lInverse U -> dofsInRange T -> dofsInRange U -> realWeights U ->
  removesDuplicates unique -> (forall t a, In t els -> In a (subs t) -> a < nv) ->
  exists m, singularPart true nv els T U A unique = Some m /\ m_rows m = sp_count T /\ m_cols m = sp_count U /\
    forall r c, (near els T U r c -> m_at m r c = galerkin T U A r c) /\ (~ near els T U r c -> m_at m r c = zero).
Proof. intros. now apply singular_ok. Qed.
Theorem C165_different_grids : forall (K : star_ring) (T U : space K) nv els A unique, exists m, singularPart false nv els T U A unique = Some m /\
  m_rows m = sp_count T /\ m_cols m = sp_count U /\ forall r c, m_at m r c = zero.
Proof. intros. eexists. split; [reflexivity|]. cbn. auto. Qed.
(** nothing is missing if the integrals over elements that do not touch vanish *)
Theorem C165_rest : forall (K : star_ring) (T U : space K) nv els A unique, g2lInverse T -> g2lInverse U -> dofsInRange T -> dofsInRange U -> realWeights U ->
  removesDuplicates unique -> (forall t a, In t els -> In a (subs t) -> a < nv) ->
  (forall e f i j, ~ touching els e f -> A e f i j = zero) ->
  exists m, singularPart true nv els T U A unique = Some m /\ forall r c, m_at m r c = galerkin T U A r c.
Proof.
  intros K T U nv els A unique GT GU RT RU WU UQ B Z. destruct (singular_ok GT GU RT RU WU A UQ B) as (m & E & R & C & H). exists m. split; [exact E|]. intros r c.
  assert (D : forall e f, touching els e f \/ ~ touching els e f).
  { intros e f. destruct (nth_error els e) as [s|] eqn:Es; [|right; intros (a & b & v & X & _); congruence]. destruct (nth_error els f) as [t|] eqn:Et; [|right; intros (a & b & v & _ & X & _); congruence].
    destruct (existsb (fun v => existsb (Nat.eqb v) (subs t)) (subs s)) eqn:X.
    - left. apply existsb_exists in X. destruct X as (v & I1 & X). apply existsb_exists in X. destruct X as (w & I2 & X). apply Nat.eqb_eq in X. subst w. exists s, t, v. auto.
    - right. intros (a & b & v & E1 & E2 & I1 & I2). assert (a = s) by congruence. assert (b = t) by congruence. subst a b. enough (existsb (fun v => existsb (Nat.eqb v) (subs t)) (subs s) = true) by congruence.
      apply existsb_exists. exists v. split; [exact I1|]. apply existsb_exists. exists v. split; [exact I2|apply Nat.eqb_refl]. }
  assert (DN : near els T U r c \/ (forall e i w f j v, In (e, i, w) (support T r) -> In (f, j, v) (support U c) -> ~ touching els e f)).
  { unfold near. generalize (support T r), (support U c). intros lt lu.
    assert (F : forall e, (exists f j v, In (f, j, v) lu /\ touching els e f) \/ (forall f j v, In (f, j, v) lu -> ~ touching els e f)).
    { intros e. induction lu as [|[[f0 j0] v0] lu IH]; [right; intros f j v []|]. destruct (D e f0) as [Y|Y]; [left; exists f0, j0, v0; cbn; auto|].
      destruct IH as [(f & j & v & I & Q)|N]; [left; exists f, j, v; cbn; auto|]. right. intros f j v [[= <- <- <-]|I]; [exact Y|now apply (N f j v)]. }
    induction lt as [|[[e0 i0] w0] lt IH]; [right; intros ? ? ? ? ? ? []|]. destruct (F e0) as [(f & j & v & I & Q)|N]; [left; exists e0, i0, w0, f, j, v; cbn; auto|].
    destruct IH as [(e & i & w & f & j & v & I1 & I2 & Q)|N']; [left; exists e, i, w, f, j, v; cbn; auto|]. right. intros e i w f j v [[= <- <- <-]|I] I2; [now apply (N f j v)|now apply (N' e i w f j v)]. }
  destruct (H r c) as [H1 H2]. destruct DN as [N|N]; [now apply H1|]. rewrite H2.
  - symmetry. unfold galerkin. apply bsum_zero. intros [[e i] w] I1. apply bsum_zero. intros [[f j] v] I2. rewrite (Z e f i j (N e i w f j v I1 I2)). apply mul_zero_r.
  - intros (e & i & w & f & j & v & I1 & I2 & Q). exact (N e i w f j v I1 I2 Q).
Qed.

(** ---- a strip of three triangles with piecewise constant functions: the first and the last do not touch ---- *)
Definition strip : list subEntities := [(0, 1, 2); (2, 1, 3); (3, 4, 5)].
Definition strip0 : space Zsr := @Space Zsr 3 [[(0, 1)]; [(1, 1)]; [(2, 1)]]%Z (fun d => Some [(d, 0, 1%Z)]).
Definition nodupPairs (l : list (nat * nat)) : list (nat * nat) := nodup pair_dec l.
Lemma strip0_ok : g2lInverse strip0 /\ dofsInRange strip0 /\ realWeights strip0 /\ removesDuplicates nodupPairs.
Proof.
  split; [|split; [|split]].
  - intros d L. exists [(d, 0, 1%Z)]. split; [reflexivity|]. split; [repeat constructor; intros []|]. intros e i w. cbn in L. split.
    + intros [[= <- <- <-]|[]]. destruct d as [|[|[|d]]]; [| | |lia]; eexists; (split; [reflexivity|reflexivity]).
    + intros (ds & E1 & E2). destruct e as [|[|[|e]]]; cbn in E1.
      * injection E1 as <-. destruct i as [|i]; [|destruct i; discriminate]. cbn in E2. injection E2 as E2 E3. assert (d = 0) as -> by lia. rewrite <- E3. now left.
      * injection E1 as <-. destruct i as [|i]; [|destruct i; discriminate]. cbn in E2. injection E2 as E2 E3. assert (d = 1) as -> by lia. rewrite <- E3. now left.
      * injection E1 as <-. destruct i as [|i]; [|destruct i; discriminate]. cbn in E2. injection E2 as E2 E3. assert (d = 2) as -> by lia. rewrite <- E3. now left.
      * destruct e; discriminate.
  - intros ds g w I J. cbn in I, J. repeat destruct I as [<-|I]; try destruct I; (destruct J as [[= <- _]|[]]; cbn; lia).
  - intros ds g w _ _. reflexivity.
  - intros l. split; [apply NoDup_nodup|]. intros x. apply nodup_In.
Qed.
Example strip_singular : exists m, @singularPart Zsr true 6 strip strip0 strip0 (fun e f _ _ => Z.of_nat (10 * e + f + 1)) nodupPairs = Some m /\
  map (fun r => map (m_at m r) [0; 1; 2]) [0; 1; 2] = [[1; 2; 0]; [11; 12; 13]; [0; 22; 23]]%Z.
Proof. eexists. split; [vm_compute; reflexivity|]. vm_compute. reflexivity. Qed.
Example strip_near : near strip strip0 strip0 0 1 /\ ~ near strip strip0 strip0 0 2.
Proof.
  split.
  - exists 0, 0, 1%Z, 1, 0, 1%Z. cbn. split; [auto|]. split; [auto|]. exists (0, 1, 2), (2, 1, 3), 1. repeat split; cbn; auto.
  - intros (e & i & w & f & j & v & I1 & I2 & s & t & x & E1 & E2 & I3 & I4). cbn in I1, I2. destruct I1 as [[= <- <- <-]|[]], I2 as [[= <- <- <-]|[]]. cbn in E1, E2. injection E1 as <-. injection E2 as <-. cbn in I3, I4. lia.
Qed.

Print Assumptions C164_connectivity.
Print Assumptions C165_singular_part.
Print Assumptions C165_different_grids.
Print Assumptions C165_rest.
