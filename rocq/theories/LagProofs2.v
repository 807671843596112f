From Coq Require Import Reals Lra Lia Permutation.
From Verif Require Import Base ComplexR SegModel SegSpec SegProofs AsmModel SpaceModel SpaceSpec SpaceProofs SpaceP1Proofs PolyModel PolySpec PolyProofs1 PolyProofs2 PolyProofs3 PolyProofs4 PolyProofs5 PolyProofs6
  VecModel VecSpec VecProofs VecProofs3 LagModel LagSpec LagProofs.
Set Implicit Arguments.
Unset Strict Implicit.
Local Open Scope R_scope.

Definition zprod (l : list Z) (f : Z -> R) : R := fold_right (fun v acc => f v * acc) 1 l.
Lemma zprod_cons v l f : zprod (v :: l) f = f v * zprod l f.
Proof. reflexivity. Qed.
Lemma zprod_perm l l' f : Permutation l l' -> zprod l f = zprod l' f.
Proof. induction 1; rewrite ?zprod_cons; [reflexivity|congruence|ring|congruence]. Qed.
Lemma zprod_filter b l f : (forall v, b v = false -> f v = 1) -> zprod l f = zprod (filter b l) f.
Proof. intros H. induction l as [|x l IH]; [reflexivity|]. cbn [filter]. rewrite zprod_cons, IH. destruct (b x) eqn:E; [reflexivity|]. rewrite H by assumption. ring. Qed.
Definition zsum (l : list Z) (f : Z -> nat) : nat := fold_right (fun v acc => (f v + acc)%nat) 0%nat l.
Lemma zsum_cons v l f : zsum (v :: l) f = (f v + zsum l f)%nat.
Proof. reflexivity. Qed.
Lemma zsum_perm l l' f : Permutation l l' -> zsum l f = zsum l' f.
Proof. induction 1; rewrite ?zsum_cons; lia. Qed.
Lemma zsum_filter b l f : (forall v, b v = false -> f v = 0%nat) -> zsum l f = zsum (filter b l) f.
Proof. intros H. induction l as [|x l IH]; [reflexivity|]. cbn [filter]. rewrite zsum_cons, IH. destruct (b x) eqn:E; [reflexivity|]. rewrite H by assumption. lia. Qed.
Lemma supp_perm (w : Z -> nat) l l' : NoDup l -> NoDup l' -> (forall v, w v <> 0%nat -> In v l <-> In v l') ->
  Permutation (filter (fun v => negb (w v =? 0)%nat) l) (filter (fun v => negb (w v =? 0)%nat) l').
Proof.
  intros N N' H. apply NoDup_Permutation; [now apply NoDup_filter|now apply NoDup_filter|]. intros v. rewrite !filter_In.
  destruct (Nat.eqb_spec (w v) 0); cbn [negb]; [intuition discriminate|]. rewrite (H v) by assumption. tauto.
Qed.

Section Core.
Variables (p : nat) (pos : (1 <= p)%nat).
Lemma weight_other e n v : distinct e -> ~ In v (s_verts e) -> weightAt p e n v = 0%nat.
Proof.
  intros (a & b & c & V & ND) N. rewrite (weight_bary pos _ _ _ V). rewrite V in N. cbn [In] in N.
  destruct (Z.eqb_spec a v), (Z.eqb_spec b v), (Z.eqb_spec c v); tauto.
Qed.
Lemma weights e a b c n : s_verts e = [a; b; c] -> NoDup [a; b; c] ->
  weightAt p e n a = (p - fst n - snd n)%nat /\ weightAt p e n b = fst n /\ weightAt p e n c = snd n.
Proof.
  intros V ND. apply (distinct_ne pos) in ND. rewrite !(weight_bary pos _ _ _ V).
  destruct (Z.eqb_spec a a), (Z.eqb_spec b a), (Z.eqb_spec c a), (Z.eqb_spec a b), (Z.eqb_spec b b), (Z.eqb_spec c b), (Z.eqb_spec a c), (Z.eqb_spec b c), (Z.eqb_spec c c); lia.
Qed.
Lemma weight_sum e n : distinct e -> isNode p n -> zsum (s_verts e) (weightAt p e n) = p.
Proof. intros (a & b & c & V & ND) N. destruct (weights n V ND) as (A & B & C). rewrite V. cbn. rewrite A, B, C. unfold isNode in N. lia. Qed.
Lemma share_eq e a b c q v : s_verts e = [a; b; c] ->
  shareOf e q v = (if Z.eqb a v then 1 - fst q - snd q else 0) + (if Z.eqb b v then fst q else 0) + (if Z.eqb c v then snd q else 0).
Proof. intros V. unfold shareOf, baryR. rewrite V. cbn [combine map fst snd fold_right]. ring. Qed.
Lemma shares e a b c q : s_verts e = [a; b; c] -> NoDup [a; b; c] ->
  shareOf e q a = 1 - fst q - snd q /\ shareOf e q b = fst q /\ shareOf e q c = snd q.
Proof.
  intros V ND. apply (distinct_ne pos) in ND. rewrite !(share_eq _ _ V).
  destruct (Z.eqb_spec a a), (Z.eqb_spec b a), (Z.eqb_spec c a), (Z.eqb_spec a b), (Z.eqb_spec b b), (Z.eqb_spec c b), (Z.eqb_spec a c), (Z.eqb_spec b c), (Z.eqb_spec c c); try lia; repeat split; ring.
Qed.
Lemma share_other e q v : distinct e -> ~ In v (s_verts e) -> shareOf e q v = 0.
Proof.
  intros (a & b & c & V & ND) N. rewrite (share_eq _ _ V). rewrite V in N. cbn [In] in N.
  destruct (Z.eqb_spec a v), (Z.eqb_spec b v), (Z.eqb_spec c v); try tauto. ring.
Qed.
Lemma pk_zprod e n q : distinct e -> isNode p n -> pkFunction p n q = zprod (s_verts e) (fun v => lag p (weightAt p e n v) (shareOf e q v)).
Proof.
  intros (a & b & c & V & ND) N. destruct (weights n V ND) as (A & B & C), (shares q V ND) as (A' & B' & C').
  rewrite (pk_lag _ pos N), V. cbn [zprod fold_right]. rewrite A, B, C, A', B', C'. ring.
Qed.
(** nodes that do not involve vertices without a share in q *)
Definition supported (e : selt) (q : R * R) (n : nat * nat) : bool :=
  forallb (fun v => if Req_EM_T (shareOf e q v) 0 then (weightAt p e n v =? 0)%nat else true) (s_verts e).
Lemma supported_spec e q n : distinct e -> supported e q n = true <-> forall v, weightAt p e n v <> 0%nat -> shareOf e q v <> 0.
Proof.
  intros D. unfold supported. rewrite forallb_forall. split.
  - intros H v W Z. assert (I : In v (s_verts e)). { destruct (in_dec Z.eq_dec v (s_verts e)); [assumption|]. exfalso. apply W. now apply weight_other. }
    specialize (H v I). destruct (Req_EM_T (shareOf e q v) 0); [|tauto]. apply Nat.eqb_eq in H. tauto.
  - intros H v I. destruct (Req_EM_T (shareOf e q v) 0); [|reflexivity]. apply Nat.eqb_eq. destruct (Nat.eq_dec (weightAt p e n v) 0); [assumption|]. exfalso. now apply (H v).
Qed.
Lemma unsupported e q n : distinct e -> isNode p n -> supported e q n = false -> pkFunction p n q = 0.
Proof.
  intros D N S. rewrite (@pk_zprod e n q D N). unfold supported in S.
  assert (X : exists v, In v (s_verts e) /\ shareOf e q v = 0 /\ weightAt p e n v <> 0%nat).
  { revert S. generalize (s_verts e). induction l as [|v l IH]; cbn; [discriminate|]. intros S. apply andb_false_iff in S as [S|S].
    - exists v. destruct (Req_EM_T (shareOf e q v) 0); [|discriminate]. apply Nat.eqb_neq in S. auto.
    - destruct (IH S) as (w & A & B). exists w. auto. }
  destruct X as (v & I & Z & W). revert I. generalize (s_verts e). induction l as [|w l IH]; intros I; [destruct I|]. rewrite zprod_cons. destruct I as [->|I].
  - rewrite Z, lag_zero by lia. ring.
  - rewrite (IH I). ring.
Qed.

Section Two.
Variables (e e' : selt) (q q' : R * R) (a' b' c' : Z).
Hypotheses (D : distinct e) (V' : s_verts e' = [a'; b'; c']) (ND' : NoDup [a'; b'; c']) (SS : sameSurfacePoint e q e' q').
Definition transfer (n : nat * nat) : nat * nat := (weightAt p e n b', weightAt p e n c').
Lemma D' : distinct e'.
Proof. exists a', b', c'. auto. Qed.
Lemma supp_in n v : supported e q n = true -> weightAt p e n v <> 0%nat -> In v (s_verts e) /\ In v (s_verts e').
Proof.
  intros S W. split.
  - destruct (in_dec Z.eq_dec v (s_verts e)); [assumption|]. exfalso. apply W. now apply weight_other.
  - destruct (in_dec Z.eq_dec v (s_verts e')); [assumption|]. exfalso. apply (proj1 (supported_spec q n D) S v W). rewrite (SS v). apply share_other; [exact D'|assumption].
Qed.
Lemma transfer_spec n : isNode p n -> supported e q n = true -> isNode p (transfer n) /\ samePoint p e n e' (transfer n).
Proof.
  intros N S. pose proof D as DD. destruct DD as (a & b & c & V & ND).
  assert (T : zsum (s_verts e') (weightAt p e n) = p).
  { rewrite <- (weight_sum D N) at 2. rewrite (@zsum_filter (fun v => negb (weightAt p e n v =? 0)%nat) (s_verts e')), (@zsum_filter (fun v => negb (weightAt p e n v =? 0)%nat) (s_verts e))
      by (intros v E; apply negb_false_iff, Nat.eqb_eq in E; exact E).
    apply zsum_perm, supp_perm; [now rewrite V'|now rewrite V|]. intros v W. destruct (supp_in S W). tauto. }
  rewrite V' in T. cbn in T.
  assert (NT : isNode p (transfer n)) by (unfold isNode, transfer; cbn [fst snd]; lia). split; [exact NT|].
  intros v. destruct (weights (transfer n) V' ND') as (A & B & C). unfold transfer in A, B, C. cbn [fst snd] in A, B, C.
  destruct (Z.eq_dec v a') as [->|Na]; [unfold transfer; rewrite A; lia|]. destruct (Z.eq_dec v b') as [->|Nb]; [unfold transfer; rewrite B; reflexivity|].
  destruct (Z.eq_dec v c') as [->|Nc]; [unfold transfer; rewrite C; reflexivity|].
  assert (NI : ~ In v (s_verts e')) by (rewrite V'; cbn; intuition congruence). rewrite (weight_other _ D' NI).
  destruct (Nat.eq_dec (weightAt p e n v) 0) as [|W]; [assumption|]. exfalso. now apply NI, (supp_in S W).
Qed.
Lemma transfer_supported n : isNode p n -> supported e q n = true -> supported e' q' (transfer n) = true.
Proof.
  intros N S. destruct (transfer_spec N S) as (_ & SP). apply (supported_spec q' (transfer n) D'). intros v W. rewrite <- (SP v) in W. rewrite <- (SS v). now apply (proj1 (supported_spec q n D) S).
Qed.
Lemma transfer_value n : isNode p n -> supported e q n = true -> pkFunction p n q = pkFunction p (transfer n) q'.
Proof.
  intros N S. destruct (transfer_spec N S) as (N' & SP). rewrite (@pk_zprod e n q D N), (@pk_zprod e' _ q' D' N').
  pose proof D as DD. destruct DD as (a & b & c & V & ND).
  transitivity (zprod (s_verts e') (fun v => lag p (weightAt p e n v) (shareOf e q v))).
  - rewrite (@zprod_filter (fun v => negb (weightAt p e n v =? 0)%nat) (s_verts e')), (@zprod_filter (fun v => negb (weightAt p e n v =? 0)%nat) (s_verts e))
      by (intros v E; apply negb_false_iff, Nat.eqb_eq in E; rewrite E; apply lag0).
    apply zprod_perm, supp_perm; [now rewrite V|now rewrite V'|]. intros v W. destruct (supp_in S W). tauto.
  - generalize (s_verts e'). induction l as [|v l IH]; [reflexivity|]. rewrite !zprod_cons, IH, (SP v), (SS v). reflexivity.
Qed.
End Two.

Lemma sum_same e e' q q' (c : selt -> nat * nat -> R) : distinct e -> distinct e' -> sameSurfacePoint e q e' q' ->
  (forall n n', isNode p n -> isNode p n' -> samePoint p e n e' n' -> c e n = c e' n') ->
  rsum (nodes p) (fun n => pkFunction p n q * c e n) = rsum (nodes p) (fun n => pkFunction p n q' * c e' n).
Proof.
  intros D D' SS H. pose proof D as (a & b & cc & V & ND). pose proof D' as (a' & b' & c' & V' & ND').
  assert (SS' : sameSurfacePoint e' q' e q) by (intros v; now rewrite (SS v)).
  rewrite (@rsum_filter _ (supported e q) (nodes p)) by (intros n I S; apply in_nodes in I; rewrite (unsupported D I S); ring).
  rewrite (@rsum_filter _ (supported e' q') (nodes p)) by (intros n I S; apply in_nodes in I; rewrite (unsupported D' I S); ring).
  assert (PM : Permutation (filter (supported e' q') (nodes p)) (map (transfer e b' c') (filter (supported e q) (nodes p)))).
  { apply NoDup_Permutation.
    - apply NoDup_filter, nodes_NoDup.
    - apply map_NoDup_in; [|apply NoDup_filter, nodes_NoDup]. intros n n' I I' E. apply filter_In in I as (I & S), I' as (I' & S'). apply in_nodes in I, I'.
      destruct (@transfer_spec e e' q q' a' b' c' D V' ND' SS n I S) as (_ & P1). destruct (@transfer_spec e e' q q' a' b' c' D V' ND' SS n' I' S') as (_ & P2).
      apply (same_nn (p := p) pos D); [|assumption|assumption]. intros v. rewrite (P1 v), (P2 v), E. reflexivity.
    - intros n. rewrite in_map_iff. split.
      + intros I. apply filter_In in I as (I & S). apply in_nodes in I. exists (transfer e' b cc n).
        destruct (@transfer_spec e' e q' q a b cc D' V ND SS' n I S) as (N1 & P1). pose proof (@transfer_supported e' e q' q a b cc D' V ND SS' n I S) as S1.
        split; [|apply filter_In; split; [now apply in_nodes|exact S1]].
        destruct (@transfer_spec e e' q q' a' b' c' D V' ND' SS _ N1 S1) as (N2 & P2).
        apply (same_nn (p := p) pos D'); [|assumption|assumption]. intros v. now rewrite <- (P2 v), <- (P1 v).
      + intros (m & <- & I). apply filter_In in I as (I & S). apply in_nodes in I. apply filter_In. split.
        * apply in_nodes. now apply (@transfer_spec e e' q q' a' b' c' D V' ND' SS).
        * now apply (@transfer_supported e e' q q' a' b' c' D V' ND' SS). }
  rewrite (rsum_perm _ PM), rsum_map. apply rsum_ext. intros n I. apply filter_In in I as (I & S). apply in_nodes in I.
  destruct (@transfer_spec e e' q q' a' b' c' D V' ND' SS n I S) as (N' & SP). rewrite (@transfer_value e e' q q' a' b' c' D V' ND' SS n I S), (H n _ I N' SP). reflexivity.
Qed.
End Core.
