From Coq Require Import Reals Lra Lia.
From Verif Require Import Base ComplexR SegModel SegSpec SegProofs AsmModel SpaceModel SpaceSpec SpaceProofs SpaceRwgProofs PolySpec VecModel VecSpec VecProofs.
Set Implicit Arguments.
Unset Strict Implicit.
Local Open Scope R_scope.

Lemma triangulation_triangles g : triangulation g -> triangles g.
Proof.
  intros (A & B & _) e I. destruct (A e I) as (a & b & c & i & j & k & V & ND & F). rewrite F. split; [reflexivity|]. cbn [map fst].
  assert (X : forall f f', In f (s_facets e) -> In f' (s_facets e) -> fst f = fst f' -> forall v, In v (snd f) -> In v (snd f')).
  { intros f f' P Q E v. apply (B e e f f' I I P Q). exact E. }
  rewrite F in X. inversion ND as [|? ? N1 ND1]; subst. inversion ND1 as [|? ? N2 _]; subst. cbn [In] in *.
  assert (IJ : i <> j). { intro E. pose proof (X (i, [a;b]) (j, [a;c]) ltac:(auto) ltac:(auto) E b ltac:(cbn; auto)) as Q. cbn in Q. intuition congruence. }
  assert (IK : i <> k). { intro E. pose proof (X (i, [a;b]) (k, [b;c]) ltac:(auto) ltac:(auto) E a ltac:(cbn; auto)) as Q. cbn in Q. intuition congruence. }
  assert (JK : j <> k). { intro E. pose proof (X (j, [a;c]) (k, [b;c]) ltac:(auto) ltac:(auto) E a ltac:(cbn; auto)) as Q. cbn in Q. intuition congruence. }
  repeat constructor; cbn; intuition congruence.
Qed.

Lemma in_sidesOn g i e k : In e (g_elts g) -> sideIs e k i -> In (s_index e, k) (sidesOn g i).
Proof.
  intros I N. rewrite sidesOn_positions. apply in_flat_map. exists e. split; [exact I|]. apply in_positions. split; [reflexivity|]. exists k. split; [lia|exact N].
Qed.
Lemma sidesOn_inv g i x k : In (x, k) (sidesOn g i) -> exists e, In e (g_elts g) /\ s_index e = x /\ sideIs e k i.
Proof. intros I. rewrite sidesOn_positions in I. apply in_flat_map in I as (e & I & J). apply in_positions in J as (-> & k' & -> & J). eauto. Qed.

(** what evaluate computes on an element *)
Lemma sum3 (val : nat -> vec) cs a b c : nth_error cs 0 = Some a -> nth_error cs 1 = Some b -> nth_error cs 2 = Some c ->
  sumShapes val cs 3 = Some (vadd (vadd (vadd vzero (vscale a (val 0%nat))) (vscale b (val 1%nat))) (vscale c (val 2%nat))).
Proof. intros A B C. unfold sumShapes. cbn [seq fold_left obind]. rewrite A. cbn [obind]. rewrite B. cbn [obind]. rewrite C. reflexivity. Qed.

Lemma oseq_map {A B} (f : A -> option B) l : (forall x, In x l -> exists y, f x = Some y) ->
  exists r, oseq (map f l) = Some r /\ length r = length l /\ forall i x, nth_error l i = Some x -> nth_error r i = f x.
Proof.
  induction l as [|a l IH]; intros H.
  - exists []. split; [reflexivity|]. split; [reflexivity|]. intros [|i] x; discriminate.
  - destruct (H a ltac:(now left)) as (y & E). destruct IH as (r & R1 & R2 & R3); [intros; apply H; now right|].
    exists (y :: r). cbn [map oseq]. rewrite E. cbn [obind]. rewrite R1. split; [reflexivity|]. split; [cbn; congruence|].
    intros [|i] x N; cbn in *; [congruence|eauto].
Qed.

(** the coefficient of local dof k on element e *)
Definition coefficient (u : list R) (d : Z) : R := if (0 <=? d)%Z then nth (Z.to_nat d) u 0 else 0.
Lemma local_coefficients (m : dofmap Rsr) u e : consistent m -> length u = globalDofCount m ->
  (exists w, dofWeight m e 0 w) ->
  exists cs, localCoefficients m u e = Some cs /\
    forall k d w, globalDof m e k d -> dofWeight m e k w -> nth_error cs k = Some (coefficient u d * w).
Proof.
  intros (C1 & C2 & C3) L (w0 & W0). destruct (proj2 (C2 e 0%nat) (ex_intro _ w0 W0)) as (d0 & ds & D & D0).
  destruct W0 as (ws & W & W0). unfold localCoefficients. rewrite D, W. cbn [obind].
  assert (LL : length ds = length ws).
  { assert (H : forall i, (i < length ds)%nat <-> (i < length ws)%nat).
    { intros i. rewrite <- !nth_error_Some. specialize (C2 e i). split; intros H.
      - destruct (nth_error ds i) as [d|] eqn:Q; [|congruence]. destruct (proj1 C2) as (w & ws' & A & B); [exists d, ds; auto|]. assert (ws' = ws) by congruence. subst. congruence.
      - destruct (nth_error ws i) as [w|] eqn:Q; [|congruence]. destruct (proj2 C2) as (d & ds' & A & B); [exists w, ws; auto|]. assert (ds' = ds) by congruence. subst. congruence. }
    destruct (Nat.lt_trichotomy (length ds) (length ws)) as [X|[X|X]]; [apply H in X; lia|exact X|apply H in X; lia]. }
  assert (OK : forall d, In d ds -> (if (0 <=? d)%Z then nth_error u (Z.to_nat d) else Some 0) = Some (coefficient u d)).
  { intros d I. apply In_nth_error in I as (k & N). unfold coefficient. destruct (Z.leb_spec 0 d); [|reflexivity].
    destruct (C1 e k d) as [?|?]; [exists ds; auto|lia|]. apply nth_error_nth'. rewrite L. lia. }
  destruct (@oseq_map _ _ (fun d => if (0 <=? d)%Z then nth_error u (Z.to_nat d) else Some 0) ds) as (cs & R1 & R2 & R3).
  { intros d I. rewrite (OK d I). eauto. }
  rewrite R1. cbn [obind]. destruct (Nat.eqb_spec (length cs) (length ws)); [|lia].
  eexists. split; [reflexivity|]. intros k d w (ds' & A & B) (ws' & A' & B').
  assert (ds' = ds) by congruence. assert (ws' = ws) by congruence. subst ds' ws'.
  assert (NC : nth_error cs k = Some (coefficient u d)) by (rewrite (R3 k d B); apply OK; eapply nth_error_In; eauto).
  rewrite nth_error_map. assert (Q : nth_error (combine cs ws) k = Some (coefficient u d, w)).
  { clear -NC B'. revert ws k NC B'. induction cs as [|a cs IH]; intros [|b ws] [|k] X Y; cbn in *; try discriminate; [congruence|eauto]. }
  rewrite Q. reflexivity.
Qed.

Section Rwg.
Variables (g : sgrid) (pos : Z -> vec) (s : segment) (len : Z -> R).
Hypotheses (G : gridOk g) (F : fits g s) (TR : triangulation g) (PG : properGrid g pos) (IM : (g_n0 g <= INT_MAX)%Z)
  (MF : forall i, (length (sidesOn g i) <= 2)%nat).

Lemma corners_ex e : In e (g_elts g) -> exists T, cornersOf pos e = Some T /\ proper T.
Proof.
  intros I. destruct TR as (A & _). destruct (A e I) as (a & b & c & i & j & k & V & _). unfold cornersOf. rewrite V. eexists. split; [reflexivity|].
  apply (PG I). unfold cornersOf. now rewrite V.
Qed.
Lemma side_ex e k : In e (g_elts g) -> (k < 3)%nat -> exists i, sideIs e k i.
Proof.
  intros I K. destruct (triangulation_triangles TR I) as (L & _). unfold sideIs. destruct (nth_error (map fst (s_facets e)) k) eqn:Q; [eauto|].
  apply nth_error_None in Q. rewrite map_length in Q. lia.
Qed.

Lemma rwg_local : exists (m : dofmap Rsr), rwgSpace g len s = Some m /\ consistent m /\
  (forall e k i, In e (g_elts g) -> sideIs e k i -> exists d w, globalDof m (s_index e) k d /\ dofWeight m (s_index e) k w /\
     ((0 <= d)%Z <-> holds s 1 i /\ length (sidesOn g i) = 2%nat) /\ (w = len i \/ w = - len i)) /\
  (forall e k e' k' i d d' w w', In e (g_elts g) -> In e' (g_elts g) -> sideIs e k i -> sideIs e' k' i -> (s_index e, k) <> (s_index e', k') ->
     globalDof m (s_index e) k d -> globalDof m (s_index e') k' d' -> dofWeight m (s_index e) k w -> dofWeight m (s_index e') k' w' ->
     d = d' /\ (holds s 1 i -> w = - w')).
Proof.
  assert (T := triangulation_triangles TR).
  destruct (@rwg_core Rsr g len s false true false G F T eq_refl IM) as (m & edges & E & C & FE & SS & LE & IE & GL & WT).
  exists m. split; [exact E|]. split; [exact C|].
  assert (AS : forall i, activeSides g s false i = sidesOn g i).
  { intro i. unfold activeSides. cbn [negb orb]. clear. induction (sidesOn g i); cbn; congruence. }
  assert (IE' : forall i, In i edges <-> holds s 1 i /\ length (sidesOn g i) = 2%nat).
  { intro i. rewrite IE. unfold rwgEdgeHasDof. specialize (MF i). split.
    - intros (_ & H1 & H2 & _). split; [auto|lia].
    - intros (H1 & H2). split; [|split; [auto|split; [lia|discriminate]]].
      apply holds_iff in H1; [|lia]. destruct (F (c := 1%nat)) as (CC & _); [lia|]. rewrite CC in H1. apply H1. }
  assert (NDE : NoDup edges).
  { clear -SS. induction SS as [|a l S IH FF]; constructor; [|exact IH]. intro I. rewrite Forall_forall in FF. specialize (FF _ I). lia. }
  pose proof C as (C1 & C2 & C3).
  (* the dof of a side is the position of its edge among [edges] *)
  assert (DOF : forall e k i d, In e (g_elts g) -> sideIs e k i -> globalDof m (s_index e) k d ->
     (0 <= d)%Z /\ nth_error edges (Z.to_nat d) = Some i \/ d = (-1)%Z /\ ~ In i edges).
  { intros e k i d I S D. destruct (C1 _ _ _ D) as [-> | R].
    - right. split; [reflexivity|]. intro J. apply In_nth_error in J as (n & N).
      destruct (C3 n) as (l & A & _ & B). { rewrite <- LE. apply nth_error_Some. congruence. }
      rewrite (GL n i N), AS in A. injection A as <-. pose proof (in_sidesOn I S) as X. apply B in X.
      destruct D as (ds & P & Q), X as (ds' & P' & Q'). assert (ds' = ds) by congruence. subst. assert (Z.of_nat n = (-1)%Z) by congruence. lia.
    - left. split; [lia|]. destruct (C3 (Z.to_nat d)) as (l & A & _ & B); [lia|].
      rewrite Z2Nat.id in B by lia. apply B in D. destruct (nth_error edges (Z.to_nat d)) as [i'|] eqn:N.
      + rewrite (GL _ _ N), AS in A. injection A as <-. apply sidesOn_inv in D as (x & J & EX & S'). assert (x = e) by (apply (index_unique g); auto).
        subst x. unfold sideIs in *. congruence.
      + apply nth_error_None in N. lia. }
  split.
  - intros e k i I S. destruct (WT e k i I S) as (low & W & _).
    destruct (proj2 (C2 (s_index e) k)) as (d & D); [eauto|]. exists d. eexists. split; [exact D|]. split; [exact W|]. split.
    + rewrite <- IE'. destruct (DOF e k i d I S D) as [(P & N)|(-> & N)].
      * split; [intros _; eapply nth_error_In; eauto|auto].
      * split; [lia|tauto].
    + destruct (low =? s_index e)%Z; auto.
  - intros e k e' k' i d d' w w' I I' S S' NE D D' W W'. split.
    + destruct (DOF e k i d I S D) as [(P & N)|(P & N)], (DOF e' k' i d' I' S' D') as [(P' & N')|(P' & N')].
      * assert (Z.to_nat d = Z.to_nat d'); [|lia]. apply (proj1 (NoDup_nth_error edges) NDE); [apply nth_error_Some; congruence|congruence].
      * exfalso. apply N'. eapply nth_error_In; eauto.
      * exfalso. apply N. eapply nth_error_In; eauto.
      * congruence.
    + intros H. destruct (WT e k i I S) as (low & V & LO). destruct (WT e' k' i I' S') as (low' & V' & LO').
      destruct LO as (L1 & L2); [auto|]. destruct LO' as (L1' & L2'); [auto|].
      assert (low = low').
      { apply in_map_iff in L1 as (x & <- & X). apply in_map_iff in L1' as (x' & <- & X'). pose proof (L2 _ X'). pose proof (L2' _ X). lia. }
      subst low'. assert (SNE : s_index e <> s_index e').
      { intro Q. assert (e = e') by (apply (index_unique g); auto). subst e'. apply NE. f_equal. destruct (T e I) as (_ & ND).
        apply (proj1 (NoDup_nth_error _) ND); [apply nth_error_Some; unfold sideIs in S; congruence|unfold sideIs in *; congruence]. }
      assert (WW : w = if (low =? s_index e)%Z then len i else - len i).
      { destruct W as (ws & A & B), V as (ws' & A' & B'). assert (ws' = ws) by congruence. subst. rewrite B in B'. injection B' as ->. reflexivity. }
      assert (WW' : w' = if (low =? s_index e')%Z then len i else - len i).
      { destruct W' as (ws & A & B), V' as (ws' & A' & B'). assert (ws' = ws) by congruence. subst. rewrite B in B'. injection B' as ->. reflexivity. }
      subst w w'. assert (OR : low = s_index e \/ low = s_index e').
      { pose proof (in_sidesOn I S) as X. pose proof (in_sidesOn I' S') as X'. pose proof (MF i) as M. revert X X' M L1. clear -NE.
        destruct (sidesOn g i) as [|a [|b [|]]]; cbn; intros; try lia; try tauto.
        - destruct X as [X|[]], X' as [X'|[]]. congruence.
        - destruct X as [X|[X|[]]], X' as [X'|[X'|[]]]; subst; cbn in *; try congruence; intuition. }
      destruct OR as [-> | ->].
      * rewrite Z.eqb_refl. destruct (Z.eqb_spec (s_index e) (s_index e')); [congruence|]. lra.
      * rewrite Z.eqb_refl. destruct (Z.eqb_spec (s_index e') (s_index e)); [congruence|]. lra.
Qed.
End Rwg.
