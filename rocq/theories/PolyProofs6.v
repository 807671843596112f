(** Continuous spaces: the whole assignment. *)
From Coq Require Import Permutation Sorted.
From Verif Require Import Base SegModel SegSpec SegProofs AsmModel AsmSpec SpaceModel SpaceSpec SpaceProofs SpaceP1Proofs RangeProofs PolyModel PolySpec PolyProofs1 PolyProofs2 PolyProofs3 PolyProofs4 PolyProofs5.
Set Implicit Arguments.
Unset Strict Implicit.
Local Open Scope Z_scope.

Lemma zrange_length n : length (zrange n) = Z.to_nat n.
Proof. unfold zrange. now rewrite map_length, seq_length. Qed.
Lemma zget_zrange n i : 0 <= i < n -> zget (zrange n) i = Some i.
Proof.
  intros R. unfold zget. destruct (Z.ltb_spec i 0); [lia|]. unfold zrange. rewrite nth_error_map. 
  rewrite (nth_error_nth' _ 0%nat) by (rewrite seq_length; lia). rewrite seq_nth by lia. cbn. f_equal. lia.
Qed.
Lemma oseq_marks s c w n : (c < 4)%nat -> exists marks, oseq (map (fun i => b <- contains s (Z.of_nat c) i ;; Some (if b : bool then w else -1)) (zrange n)) = Some marks /\
  length marks = Z.to_nat n /\ (forall i, 0 <= i < n -> zget marks i = Some (if inSeg s c i then w else -1)).
Proof.
  intros L. exists (map (fun i => if inSeg s c i then w else -1) (zrange n)). split; [|split].
  - apply oseq_map. intros i _. destruct (inSeg_spec s i L) as (-> & _). reflexivity.
  - now rewrite map_length, zrange_length.
  - intros i R. now rewrite zget_map, zget_zrange.
Qed.
Lemma in_zget A (l : list A) x : In x l -> exists i, 0 <= i < Z.of_nat (length l) /\ zget l i = Some x.
Proof.
  intros I. apply In_nth_error in I as (i & E). exists (Z.of_nat i). rewrite zget_nat. split; [|exact E].
  assert (i < length l)%nat by (apply nth_error_Some; congruence). lia.
Qed.

(** what is needed of a dof map built from a table *)
Definition tabulates {K : star_ring} (g : sgrid) (p : nat) (m : dofmap K) (tab : selt -> nat * nat -> option Z) : Prop :=
  consistent m /\ flatEnumerates m /\
  (forall x i d, globalDof m x i d <-> exists e n, In e (g_elts g) /\ x = s_index e /\ nth_error (nodes p) i = Some n /\ d = val (tab e n)) /\
  (forall e i, In e (g_elts g) -> (i < length (nodes p))%nat -> dofWeight m (s_index e) i one) /\
  (forall e n d, In e (g_elts g) -> isNode p n -> tab e n = Some d -> 0 <= d < Z.of_nat (globalDofCount m)).

Lemma poly_core (K : star_ring) g s strict p : gridOk g -> triangulation g -> (1 <= p <= 10)%nat ->
  exists (m : dofmap K) tab, polyAssign g s strict (Z.of_nat p) = Some (m, Z.of_nat (flatLocalDofCount m)) /\ tabulates g p m tab /\
   (forall e n, In e (g_elts g) -> isNode p n -> ((exists d, tab e n = Some d) <-> nodeOn s p e n /\ (strict = true -> holds s 0 (s_index e)))) /\
   (forall e n d e' n' d', In e (g_elts g) -> In e' (g_elts g) -> isNode p n -> isNode p n' -> tab e n = Some d -> tab e' n' = Some d' ->
     (d = d' <-> samePoint p e n e' n')) /\
   ((strict = false -> noIsolatedVertex g) -> (strict = false -> (2 <= p)%nat -> noIsolatedEdge g) -> forall d, (d < globalDofCount m)%nat ->
     exists e n, In e (g_elts g) /\ isNode p n /\ tab e n = Some (Z.of_nat d)).
Proof.
  intros G T (pos & P10). unfold polyAssign.
  destruct (Z.leb_spec 1 (Z.of_nat p)); [|lia]. destruct (Z.leb_spec (Z.of_nat p) 10); [|lia]. cbn [andb negb].
  destruct (length (g_elts g) =? 0)%nat eqn:EC.
  { apply Nat.eqb_eq in EC. assert (EN : g_elts g = []) by (destruct (g_elts g); [reflexivity|discriminate]).
    exists (DofMap [] [] [] []), (fun _ _ => None). split; [reflexivity|].
    split.
    - split; [|split; [|split; [|split]]].
      + split; [|split].
        * intros e i d (ds & A & _). unfold zget in A. cbn in A. destruct (e <? 0); [discriminate|]. destruct (Z.to_nat e); discriminate.
        * intros e i. split; intros (d & ds & A & _); unfold zget in A; cbn in A; destruct (e <? 0); try discriminate; destruct (Z.to_nat e); discriminate.
        * intros d L. cbn in L. lia.
      + split; [constructor|]. intros e i. cbn. split; [tauto|]. intros (d & (ds & A & _) & _). unfold zget in A. cbn in A. destruct (e <? 0); [discriminate|]. destruct (Z.to_nat e); discriminate.
      + intros x i d. rewrite EN. split; [|intros (e & n & [] & _)]. intros (ds & A & _). unfold zget in A. cbn in A. destruct (x <? 0); [discriminate|]. destruct (Z.to_nat x); discriminate.
      + rewrite EN. intros e i [].
      + discriminate.
    - rewrite EN. split; [intros e n []|]. split; [intros e n d e' n' d' []|]. intros _ _ d L. cbn in L. lia. }
  clear EC.
  destruct (@oseq_marks s 2 1 (g_n2 g)) as (vm & EV & LV & PV); [lia|]. cbn [Z.of_nat] in EV. change (Z.pos (Pos.of_succ_nat 1)) with 2 in EV. rewrite EV. cbn [obind].
  destruct (@oseq_marks s 1 (Z.of_nat p - 1) (g_n1 g)) as (em & EE & LE & PE); [lia|]. change (Z.of_nat 1) with 1 in EE. rewrite EE. cbn [obind].
  set (BB := Z.max 0 ((Z.of_nat p - 1) * (Z.of_nat p - 2) / 2)).
  assert (BBE : BB = (Z.of_nat p - 1) * (Z.of_nat p - 2) / 2) by (unfold BB; rewrite <- (inner_length pos); lia).
  pose proof G as (G1 & G2 & G3 & G4 & _).
  destruct (@pscan_spec s strict BB (Z.max 0 ((Z.of_nat p - 1) * (Z.of_nat p - 1))) (g_elts g)
     (PScan (repeat 0 (length (g_elts g))) (repeat true (Z.to_nat (g_n2 g))) (repeat true (Z.to_nat (g_n1 g))))) as (sc & ES & L1 & L2 & L3 & S1 & S2 & S3 & S4).
  { intros e I. cbn [ps_bubble]. rewrite repeat_length. split; [|now apply G2]. destruct (distinct_of T I) as (a & b & c & -> & _). reflexivity. }
  { intros e v I J. cbn [ps_nov]. rewrite repeat_length. specialize (G4 e v I J). lia. }
  { intros e v I J. cbn [ps_noe]. rewrite repeat_length. specialize (G3 e v I J). lia. }
  { exact G1. }
  cbn [ps_bubble ps_nov ps_noe] in L1, L2, L3, S2, S3, S4. rewrite repeat_length in L1, L2, L3. rewrite !repeat_length in S3, S4.
  rewrite ES. cbn [obind]. cbv zeta.
  assert (DROP : forall flags marks n (f : Z -> bool) (us : Z -> bool) w, 0 <= n -> length flags = Z.to_nat n -> length marks = Z.to_nat n ->
     (forall i, 0 <= i < n -> zget flags i = Some (f i)) -> (forall i, 0 <= i < n -> zget marks i = Some (if us i then w else -1)) ->
     length (dropFlagged flags marks) = Z.to_nat n /\ forall i, 0 <= i < n -> zget (dropFlagged flags marks) i = Some (if us i && negb (f i) then w else -1)).
  { intros flags marks n f us w NN La Lb Pa Pb. unfold dropFlagged. split; [rewrite map_length, combine_length; lia|].
    intros i R. rewrite zget_map, zget_combine by congruence. rewrite Pa, Pb by exact R. cbn [fst snd]. destruct (f i), (us i); reflexivity. }
  assert (VM : let vm' := if strict then dropFlagged (ps_nov sc) vm else vm in length vm' = Z.to_nat (g_n2 g) /\
     forall i, 0 <= i < g_n2 g -> zget vm' i = Some (if usedB g s strict i then 1 else -1)).
  { destruct strict; cbv zeta iota; [|split; [exact LV|]; intros i R; rewrite PV by exact R; unfold usedB; cbn [negb orb]; now rewrite andb_true_r].
    destruct (Z_le_gt_dec 0 (g_n2 g)) as [NN|NN]; [|split; [|lia]; unfold dropFlagged; rewrite map_length, combine_length; lia].
    destruct (DROP (ps_nov sc) vm (g_n2 g) (fun i => negb (existsb (fun e => inSeg s 0 (s_index e) && smem i (s_verts e)) (g_elts g))) (inSeg s 2) 1) as (A & B); auto.
    - intros i R. rewrite (S3 eq_refl) by lia. rewrite zget_repeat by lia. now destruct (existsb _ _).
    - split; [exact A|]. intros i R. rewrite B by exact R. unfold usedB. cbn [negb orb]. now rewrite negb_involutive. }
  assert (EM : let em' := if strict then dropFlagged (ps_noe sc) em else em in length em' = Z.to_nat (g_n1 g) /\
     forall i, 0 <= i < g_n1 g -> zget em' i = Some (if usedEB g s strict i then Z.of_nat p - 1 else -1)).
  { destruct strict; cbv zeta iota; [|split; [exact LE|]; intros i R; rewrite PE by exact R; unfold usedEB; cbn [negb orb]; now rewrite andb_true_r].
    destruct (Z_le_gt_dec 0 (g_n1 g)) as [NN|NN]; [|split; [|lia]; unfold dropFlagged; rewrite map_length, combine_length; lia].
    destruct (DROP (ps_noe sc) em (g_n1 g) (fun i => negb (existsb (fun e => inSeg s 0 (s_index e) && smem i (map fst (s_facets e))) (g_elts g))) (inSeg s 1) (Z.of_nat p - 1)) as (A & B); auto.
    - intros i R. rewrite (S4 eq_refl) by lia. rewrite zget_repeat by lia. now destruct (existsb _ _).
    - split; [exact A|]. intros i R. rewrite B by exact R. unfold usedEB. cbn [negb orb]. now rewrite negb_involutive. }
  cbv zeta in VM, EM. set (vm' := if strict then dropFlagged (ps_nov sc) vm else vm) in *. set (em' := if strict then dropFlagged (ps_noe sc) em else em) in *.
  clearbody vm' em'. destruct VM as (LV' & PV'), EM as (LE' & PE').
  destruct (numberOnes vm' 0) as [vd c1] eqn:E1. destruct (startDofs em' c1) as [ed c2] eqn:E2. destruct (startDofs (ps_bubble sc) c2) as [bd c3] eqn:E3.
  rewrite numberOnes_start in E1.
  2:{ intros x I. apply in_zget in I as (i & R & E). rewrite PV' in E by lia. injection E as <-. destruct (usedB _ _ _ _); lia. }
  assert (NV : numbered (g_n2 g) (usedB g s strict) 1 0 c1 vd) by (eapply startDofs_numbered; eauto; lia).
  assert (NE : numbered (g_n1 g) (usedEB g s strict) (Z.of_nat p - 1) c1 c2 ed) by (eapply startDofs_numbered; eauto; lia).
  assert (NB : numbered (g_n0 g) (inSeg s 0) ((Z.of_nat p - 1) * (Z.of_nat p - 2) / 2) c2 c3 bd).
  { rewrite <- BBE. eapply startDofs_numbered; [| | |exact E3]; [unfold BB; lia|rewrite L1; unfold g_n0; lia|].
    intros i R. destruct (@index_covered _ _ G R) as (e & I & <-). now apply S1. }
  set (tab := tb s strict p vd ed bd).
  assert (C3 : 0 <= c3) by (destruct NV as (_ & ? & _); destruct NE as (_ & ? & _); destruct NB as (_ & ? & _); lia).
  assert (LN : Z.to_nat ((Z.of_nat p + 1) * (Z.of_nat p + 2) / 2) = length (nodes p)) by (rewrite <- nodes_length; lia).
  rewrite LN.
  destruct (@polyLoop_spec p tab pos (elementPuts s strict (Z.of_nat p) vd ed bd) (g_elts g) (repeat [] (length (g_elts g))) (repeat [] (Z.to_nat c3)) 0)
    as (l2g & g2l & EL & A1 & A2 & A3 & A4 & A5).
  { intros e I. split; [destruct (distinct_of T I) as (a & b & c & -> & _); reflexivity|]. apply elementPuts_eq.
    - exact pos.
    - exact (shaped_of T I).
    - intros ->. unfold contB. cbn [negb orb]. destruct (inSeg_spec s (s_index e) (c := 0)) as (C & _); [lia|exact C].
    - intros ->. reflexivity.
    - intros k L. assert (0 <= vert e k < g_n2 g) by (eapply vert_range; eauto). destruct NV as (-> & _). lia.
    - intros k L. assert (0 <= facet e k < g_n1 g) by (eapply facet_range; eauto). destruct NE as (-> & _). lia.
    - assert (0 <= s_index e < g_n0 g) by (eapply index_range; eauto). destruct NB as (-> & _). lia. }
  { exact G1. }
  { intros e I. rewrite repeat_length. now apply G2. }
  { intros e n d I N H1. rewrite repeat_length, Z2Nat.id by exact C3. eapply tb_range; eauto. }
  rewrite EL. cbn [obind].
  set (m := DofMap l2g (map (fun ds => repeat one (length ds)) l2g) g2l (initializeLocal2FlatLocalDofMap l2g) : dofmap K).
  assert (GC : globalDofCount m = Z.to_nat c3) by (unfold globalDofCount, m; cbn; now rewrite A2, repeat_length).
  destruct (@table_views p tab K (nodeOrder p) (g_elts g) m) as (V1 & V2 & V3 & V4 & V5).
  { apply order_NoDup, pos. }
  { intros; now apply in_order. }
  { now apply gridOk_indices. }
  { cbn. now rewrite A1, repeat_length. }
  { reflexivity. }
  { reflexivity. }
  { exact A3. }
  { intros e n d I N H1. rewrite GC, Z2Nat.id by exact C3. eapply tb_range; eauto. }
  { intros d L. rewrite GC in L. specialize (A5 d). rewrite nth_error_repeat_ in A5 by exact L. cbn [option_map app] in A5.
    eexists. split; [exact A5|]. split; [|intros x i; apply in_hits; intros; now apply in_order].
    unfold hits. apply flat_elements_NoDup; [exact G1|]. intros e I. split; [apply NoDup_filter, order_NoDup, pos|].
    intros n J. apply filter_In in J as (J & _). now apply in_order in J. }
  exists m, tab. split; [rewrite V5, Z.add_0_l; reflexivity|]. split.
  { split; [exact V1|]. split; [exact V2|]. split; [exact V3|]. split; [exact V4|].
    intros e n d I N H1. rewrite GC, Z2Nat.id by exact C3. eapply tb_range; eauto. }
  split; [|split].
  - intros e n I N. eapply tb_active; eauto.
  - intros e n d e' n' d' I I' N N' H1 H2. eapply tb_same; eauto.
  - intros IV IE d L. rewrite GC in L. eapply tb_onto; eauto. lia.
Qed.
