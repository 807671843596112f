(** C128, C129: Buffa-Christiansen spaces. *)
From Coq Require Import Reals Lra Sorted.
From Verif Require Import Base ComplexR SegModel SegSpec SegProofs AsmModel SpaceModel SpaceSpec SpaceProofs PolySpec VecModel VecSpec VecProofs VecProofs2 VecProofs3 VecProofs4
  BaryModel BarySpec BaryProps BcModel BcSpec BcProofs2 BcProofs3 BcProofs7 BcProofs9 BcProofs12 BcProofs13 BcProofs14 BcCheck.
Set Implicit Arguments.
Unset Strict Implicit.
Local Open Scope R_scope.

(** g is an oriented triangulated surface, fg its barycentric refinement; [order] lists the edges of g *)
Definition bcGrids (g fg : sgrid) (son : Z -> nat -> Z) (order : list Z) : Prop :=
  gridOk g /\ triangulation g /\ noIsolatedEdge g /\ orientedSurface g /\ refinement g fg son /\ (g_n0 fg <= INT_MAX)%Z /\
  NoDup order /\ forall i, In i order <-> (0 <= i < g_n1 g)%Z.
(** edges lists the edges of g between two triangles, in increasing order *)
Definition interiorEdges (g : sgrid) (edges : list Z) : Prop :=
  StronglySorted Z.lt edges /\ forall i, In i edges <-> (0 <= i < g_n1 g)%Z /\ length (sidesOn g i) = 2%nat.
(** side k of e is edge i, and e is the first of the triangles at i *)
Definition firstSide (g : sgrid) (i : Z) (e : selt) (k : nat) : Prop :=
  In e (g_elts g) /\ sideIs e k i /\ forall e' k', In e' (g_elts g) -> sideIs e' k' i -> (s_index e <= s_index e')%Z.

Section C128.
Variables (g fg : sgrid) (son : Z -> nat -> Z) (order : list Z).
Lemma core : bcGrids g fg son order -> exists b edges (P : Z -> selt -> nat -> R),
  (forall check fuel, (length (g_elts fg) <= fuel)%nat -> bcAssign check g fg son order fuel = Done b) /\
  interiorEdges g edges /\ globalDofCount (bc_map b) = length edges /\ consistent (bc_map b) /\ flatEnumerates (bc_map b) /\
  (forall i, In i edges -> exists e j v0 v1, firstSide g i e j /\ sideRuns e j v1 v0 /\ dualFunction g fg i v0 v1 (P i)) /\
  forall pos u t T q, length u = globalDofCount (bc_map b) -> In t (g_elts fg) -> cornersOf pos t = Some T ->
    let x k := rsum (map (fun p => fst p * P (snd p) t k)%R (combine u edges)) in
    evaluateBc pos b u t q = Some (hdivValue T (comb q x rtValue)) /\ evaluateRbc pos b u t q = Some (hcurlValue T (comb q x ncValue)).
Proof.
  intros (G & TR & NI & OS & RF & IM & ND & ORD). destruct (bc_core G TR RF OS NI IM ND ORD) as (b & edges & P & A & S & IE & C & D & E & F & H).
  exists b, edges, P. split; [exact A|]. split; [now split|]. split; [exact C|]. split; [exact D|]. split; [exact E|]. split; [|exact H].
  intros i I. destruct (F i I) as (e & j & v0 & v1 & (L1 & L2 & L3 & L4) & X & Y). exists e, j, v0, v1. split; [|now split].
  split; [exact L1|]. split.
  - destruct (side_ex TR L1 L2) as (z & Z). unfold sideIs in *. rewrite Z. f_equal. rewrite <- L3. unfold edg. symmetry. now apply nth_error_nth.
  - intros e' k' I' S'. apply (L4 (s_index e', k')). apply in_sidesOn; auto.
Qed.
Lemma fine_ok : bcGrids g fg son order -> gridOk fg /\ triangulation fg.
Proof. intros (_ & _ & _ & _ & (A & B & _) & _). now split. Qed.
Lemma rsum_unit (f : Z -> R) : forall edges d i, nth_error edges d = Some i -> rsum (map (fun p => fst p * f (snd p))%R (combine (unitVector (length edges) d) edges)) = f i.
Proof.
  assert (Z0 : forall edges n d, (d < n)%nat -> rsum (map (fun p => fst p * f (snd p))%R (combine (map (fun k => if Nat.eqb k d then 1 else 0) (seq n (length edges))) edges)) = 0).
  { induction edges as [|e edges IH]; intros n d L; [reflexivity|]. cbn [length seq map combine fst snd]. destruct (Nat.eqb_spec n d); [lia|]. unfold rsum in *. cbn [fold_right]. rewrite IH by lia. lra. }
  assert (G0 : forall edges n d i, nth_error edges d = Some i -> rsum (map (fun p => fst p * f (snd p))%R (combine (map (fun k => if Nat.eqb k (n + d) then 1 else 0) (seq n (length edges))) edges)) = f i).
  { induction edges as [|e edges IH]; intros n d i E; [destruct d; discriminate|]. cbn [length seq map combine fst snd]. destruct d as [|d]; cbn in E.
    - injection E as ->. replace (n + 0)%nat with n by lia. rewrite Nat.eqb_refl. pose proof (Z0 edges (S n) n ltac:(lia)) as Q. unfold rsum in *. cbn [fold_right]. rewrite Q. cbn [fst snd]. lra.
    - destruct (Nat.eqb_spec n (n + S d)); [lia|]. replace (n + S d)%nat with (S n + d)%nat by lia. pose proof (IH (S n) d i E) as Q. unfold rsum in *. cbn [fold_right]. rewrite Q. cbn [fst snd]. lra. }
  intros edges d i E. apply (G0 edges 0%nat d i E).
Qed.

(** C128.  The space BC is built: one dof per interior edge, in the order of the edges; the basis function of an edge has the
    fluxes of the dual function of that edge through all sides of all fine triangles. *)
Theorem C128_dual_functions fuel : bcGrids g fg son order -> (length (g_elts fg) <= fuel)%nat ->
  exists b edges, bcAssign true g fg son order fuel = Done b /\ interiorEdges g edges /\ globalDofCount (bc_map b) = length edges /\
    consistent (bc_map b) /\ flatEnumerates (bc_map b) /\
    forall d i, nth_error edges d = Some i -> exists e j v0 v1 P, firstSide g i e j /\ sideRuns e j v1 v0 /\ dualFunction g fg i v0 v1 P /\
      forall pos t T k, In t (g_elts fg) -> cornersOf pos t = Some T -> proper T -> (k < 3)%nat ->
        fluxThrough (evaluateBc pos b (unitVector (globalDofCount (bc_map b)) d) t) T k (P t k).
Proof.
  intros BG FU. destruct (core BG) as (b & edges & P & A & IE & C & D & E & F & H). exists b, edges. split; [now apply A|]. split; [exact IE|]. split; [exact C|]. split; [exact D|]. split; [exact E|].
  intros d i N. destruct (F i (nth_error_In _ _ N)) as (e & j & v0 & v1 & X & Y & Z). exists e, j, v0, v1, (P i). split; [exact X|]. split; [exact Y|]. split; [exact Z|].
  intros pos t T k I CT PT K q nu Q O.
  destruct (H pos (unitVector (globalDofCount (bc_map b)) d) t T q) as (V & _); [unfold unitVector; now rewrite map_length, seq_length|exact I|exact CT|].
  eexists. split; [exact V|]. rewrite (@comb_flux T q _ k nu PT K Q O). rewrite C. now rewrite (@rsum_unit (fun i => P i t k) edges d i N).
Qed.
(** Normal components from the two sides of every edge of the refinement cancel, for all coefficients. *)
Theorem C128_div_conforming fuel : bcGrids g fg son order -> (length (g_elts fg) <= fuel)%nat ->
  exists b, bcAssign true g fg son order fuel = Done b /\
    forall pos u t T k z q nu t' T' k' q' nu', length u = globalDofCount (bc_map b) -> properGrid fg pos ->
      In t (g_elts fg) -> cornersOf pos t = Some T -> sideIs t k z -> onSide k q -> outward T k nu ->
      In t' (g_elts fg) -> cornersOf pos t' = Some T' -> sideIs t' k' z -> onSide k' q' -> outward T' k' nu' -> (t, k) <> (t', k') ->
      exists v v', evaluateBc pos b u t q = Some v /\ evaluateBc pos b u t' q' = Some v' /\ dot v nu + dot v' nu' = 0.
Proof.
  intros BG FU. destruct (core BG) as (b & edges & P & A & IE & C & D & E & F & H). exists b. split; [now apply A|]. destruct (fine_ok BG) as (Gf & Tf).
  intros pos u t T k z q nu t' T' k' q' nu' LU PG I CT S Q O I' CT' S' Q' O' NE.
  assert (KL : forall e k i, In e (g_elts fg) -> sideIs e k i -> (k < 3)%nat).
  { intros e k0 i I0 S0. destruct (triangulation_triangles Tf I0) as (L & _). assert (k0 < length (map fst (s_facets e)))%nat by (apply nth_error_Some; unfold sideIs in S0; congruence). rewrite map_length in *. lia. }
  destruct (H pos u t T q LU I CT) as (V & _). destruct (H pos u t' T' q' LU I' CT') as (V' & _). do 2 eexists. split; [exact V|]. split; [exact V'|].
  pose proof (@comb_flux T q (fun k => rsum (map (fun p => fst p * P (snd p) t k)%R (combine u edges))) k nu (PG t T I CT) (KL _ _ _ I S) Q O) as X.
  pose proof (@comb_flux T' q' (fun k => rsum (map (fun p => fst p * P (snd p) t' k)%R (combine u edges))) k' nu' (PG t' T' I' CT') (KL _ _ _ I' S') Q' O') as X'.
  rewrite <- (side_length_same Tf I I' CT CT' S S') in X'. destruct (sideLength_pos (PG t T I CT) (KL _ _ _ I S)) as (SL & _).
  apply (Rmult_eq_reg_r (sideLength T k)); [|lra]. rewrite Rmult_plus_distr_r, X, X', Rmult_0_l.
  assert (SUM : forall l, incl (map snd l) edges -> rsum (map (fun p => fst p * P (snd p) t k)%R l) + rsum (map (fun p => fst p * P (snd p) t' k')%R l) = 0).
  { induction l as [|p l IH]; intro IN; [unfold rsum; cbn; lra|]. unfold rsum in *. cbn [map fold_right]. assert (R0 : P (snd p) t k + P (snd p) t' k' = 0).
    { destruct (F (snd p)) as (? & ? & ? & ? & _ & _ & (CF & _)); [apply IN; now left|]. now apply (CF t k t' k' z). }
    specialize (IH (fun y Y => IN y (or_intror Y))). replace (P (snd p) t' k') with (- P (snd p) t k) by lra. lra. }
  apply SUM. intros y Y. apply in_map_iff in Y as (p & <- & Y). destruct p as [c w]. eapply in_combine_r; exact Y.
Qed.
(** RBC is built alike, and its functions are the functions of BC with the same coefficients, turned by a right angle. *)
Theorem C128_rotated fuel : bcGrids g fg son order -> (length (g_elts fg) <= fuel)%nat ->
  exists b, bcAssign true g fg son order fuel = Done b /\ bcAssign false g fg son order fuel = Done b /\
    forall pos u t T q, length u = globalDofCount (bc_map b) -> In t (g_elts fg) -> cornersOf pos t = Some T -> proper T ->
      exists v, evaluateBc pos b u t q = Some v /\ evaluateRbc pos b u t q = Some (cross (normal T) v).
Proof.
  intros BG FU. destruct (core BG) as (b & edges & P & A & IE & C & D & E & F & H). exists b. split; [now apply A|]. split; [now apply A|].
  intros pos u t T q LU I CT PT. destruct (H pos u t T q LU I CT) as (V & V'). eexists. split; [exact V|]. rewrite V'. f_equal. now apply comb_rotates.
Qed.
End C128.
Print Assumptions C128_dual_functions.
Print Assumptions C128_div_conforming.
Print Assumptions C128_rotated.

(** C129.  The construction of BC ends, whatever the grid: after a bounded number of steps the loop round a vertex finds its
    end or throws. *)
Theorem C129_construction_ends_partial g fg son order : exists N, forall fuel, (N <= fuel)%nat -> bcAssign true g fg son order fuel <> Running.
Proof. apply bc_stops. Qed.
Print Assumptions C129_construction_ends_partial.
(** RBC lacks that check.  Two pairs of triangles with one vertex in common: BC throws, RBC runs for ever. *)
Definition bowTieOrder : list Z := [0; 1; 2; 3; 4; 5; 6; 7; 8; 9]%Z.
Lemma bowTie_ok : gridOk bowTie /\ triangulation bowTie /\ noIsolatedEdge bowTie /\ manifold bowTie /\ refinement bowTie bowTieFine plainSon.
Proof.
  assert (G : gridOk bowTie) by (apply gridOkb_ok; vm_compute; reflexivity). split; [exact G|]. split; [apply triangulationb_ok; [exact G|vm_compute; reflexivity]|].
  split; [apply noIsolatedEdgeb_ok; vm_compute; reflexivity|]. split; [apply manifoldb_ok; [exact G|vm_compute; reflexivity]|]. apply refinementb_ok; [apply plainSon_ok|vm_compute; reflexivity].
Qed.
Lemma access_step A B (x : option A) (f : A -> outcome B) a r : x = Some a -> f a = r -> access x f = r.
Proof. intros -> H. exact H. Qed.
Theorem C129_construction_ends_refuted : exists g fg son order, gridOk g /\ triangulation g /\ noIsolatedEdge g /\ manifold g /\ refinement g fg son /\
  NoDup order /\ (forall i, In i order <-> (0 <= i < g_n1 g)%Z) /\
  bcAssign true g fg son order 100 = Threw /\ forall fuel, bcAssign false g fg son order fuel = Running.
Proof.
  exists bowTie, bowTieFine, plainSon, bowTieOrder. destruct bowTie_ok as (A & B & C & D & E). do 5 (split; [assumption|]).
  split; [apply nodupb_ok; reflexivity|]. split. { intro i. change bowTieOrder with (zrange (g_n1 bowTie)). apply in_zrange. }
  assert (T : exists t, bcTables bowTie bowTieFine plainSon bowTieOrder = Some t) by (eexists; vm_compute; reflexivity).
  split; [lazy -[Ropp IZR Rplus Rminus Rmult Rdiv Rinv]; reflexivity|].
  destruct T as (t & ET). intro fuel. unfold bcAssign. rewrite ET. cbn [access].
  assert (TT := ET). vm_compute in TT. injection TT as <-. unfold bowTieOrder.
  match goal with |- bindO (foldO (edgeStep false fuel ?t) (0%Z :: ?l) ?st) _ = _ => rewrite (@foldO_cons _ _ (edgeStep false fuel t) 0%Z l st st) by reflexivity end.
  match goal with |- bindO (foldO (edgeStep false fuel ?t) (1%Z :: ?l) ?st) _ = _ => assert (S : edgeStep false fuel t st 1 = Running); [|cbn [foldO]; rewrite S; reflexivity] end.
  unfold edgeStep. eapply access_step; [vm_compute; reflexivity|]. cbn [Z.eqb]. eapply access_step; [vm_compute; reflexivity|]. cbv beta iota.
  match goal with |- bindO ?x _ = _ => assert (Q : x = Running); [|rewrite Q; reflexivity] end.
  unfold walkEnd. eapply access_step; [vm_compute; reflexivity|].
  match goal with |- context [addColumn ?st ?f ?c] => destruct (@add_ok 24 2 st f c) as (st1 & l & -> & S1 & G1) end; [repeat split|lia|]. cbn [access t_next t_e2f t_f2e].
  match type of G1 with _ = Some (_ ++ [?cc]) => rewrite (@walk_forever _ _ _ _ _ _ _ _ [7; 6; 13; 12; 19; 18]%Z 24 2) with (l := l) (c := cc) end; [reflexivity|..].
  - lia.
  - intros f [<-|[<-|[<-|[<-|[<-|[<-|[]]]]]]]; split; try lia; discriminate.
  - intros f [<-|[<-|[<-|[<-|[<-|[<-|[]]]]]]]; (eexists; split; [reflexivity|cbn; tauto]).
  - intros f [<-|[<-|[<-|[<-|[<-|[<-|[]]]]]]]; (do 2 eexists; split; reflexivity).
  - cbn; tauto.
  - exact S1.
  - exact G1.
Qed.
Print Assumptions C129_construction_ends_refuted.
(** Two triangles with opposite orientations: both read outside a vector instead of throwing. *)
Theorem C129_bad_orientation_refuted : exists g fg son order, gridOk g /\ triangulation g /\ noIsolatedEdge g /\ manifold g /\ refinement g fg son /\
  NoDup order /\ (forall i, In i order <-> (0 <= i < g_n1 g)%Z) /\ forall check fuel, bcAssign check g fg son order fuel = Outside.
Proof.
  exists flipped, flippedFine, plainSon, [0; 1; 2; 3; 4]%Z.
  assert (G : gridOk flipped) by (apply gridOkb_ok; vm_compute; reflexivity). split; [exact G|]. split; [apply triangulationb_ok; [exact G|vm_compute; reflexivity]|].
  split; [apply noIsolatedEdgeb_ok; vm_compute; reflexivity|]. split; [apply manifoldb_ok; [exact G|vm_compute; reflexivity]|]. split; [apply refinementb_ok; [apply plainSon_ok|vm_compute; reflexivity]|].
  split; [apply nodupb_ok; reflexivity|]. split. { intro i. change [0; 1; 2; 3; 4]%Z with (zrange (g_n1 flipped)). apply in_zrange. }
  intros check fuel. unfold bcAssign. replace (bcTables flipped flippedFine plainSon [0; 1; 2; 3; 4]%Z) with (@None bctables) by (vm_compute; reflexivity). reflexivity.
Qed.
Print Assumptions C129_bad_orientation_refuted.

(** ---- a case: three triangles round a vertex; the other three vertices lie on the boundary ---- *)
Lemma fan3_ok : bcGrids fan3 fan3Fine plainSon [0; 1; 2; 3; 4; 5]%Z.
Proof.
  assert (G : gridOk fan3) by (apply gridOkb_ok; vm_compute; reflexivity). split; [exact G|]. split; [apply triangulationb_ok; [exact G|vm_compute; reflexivity]|].
  split; [apply noIsolatedEdgeb_ok; vm_compute; reflexivity|]. split.
  2:{ split; [apply refinementb_ok; [apply plainSon_ok|vm_compute; reflexivity]|]. split; [vm_compute; discriminate|]. split; [apply nodupb_ok; reflexivity|].
      intro i. change [0; 1; 2; 3; 4; 5]%Z with (zrange (g_n1 fan3)). apply in_zrange. }
  split; [apply manifoldb_ok; [exact G|vm_compute; reflexivity]|].
  set (A := (SElt 0 0 [(0, [0;1]); (1, [0;2]); (3, [1;2])] [0;1;2])%Z). set (B := (SElt 1 0 [(1, [0;2]); (2, [0;3]); (4, [2;3])] [0;2;3])%Z). set (C := (SElt 2 0 [(2, [0;3]); (0, [0;1]); (5, [3;1])] [0;3;1])%Z).
  intros v R.
  assert (X : fanAt fan3 v (negb (v =? 0)%Z) (if (v =? 0)%Z then [(A, 0%nat); (B, 0%nat); (C, 0%nat)] else if (v =? 1)%Z then [(A, 1%nat); (C, 2%nat)] else if (v =? 2)%Z then [(B, 1%nat); (A, 2%nat)] else [(C, 1%nat); (B, 2%nat)])); [|eauto].
  assert (V : (v = 0 \/ v = 1 \/ v = 2 \/ v = 3)%Z) by (unfold fan3 in R; cbn in R; lia).
  assert (IT : forall e k w, (In e (g_elts fan3) /\ nth_error (s_verts e) k = Some w) <->
     (e = A /\ (k, w) = (0%nat, 0%Z) \/ e = A /\ (k, w) = (1%nat, 1%Z) \/ e = A /\ (k, w) = (2%nat, 2%Z) \/ e = B /\ (k, w) = (0%nat, 0%Z) \/ e = B /\ (k, w) = (1%nat, 2%Z) \/ e = B /\ (k, w) = (2%nat, 3%Z) \/
      e = C /\ (k, w) = (0%nat, 0%Z) \/ e = C /\ (k, w) = (1%nat, 3%Z) \/ e = C /\ (k, w) = (2%nat, 1%Z))).
  { intros e k w. split.
    - intros (I & N). change (In e [A; B; C]) in I. destruct I as [<-|[<-|[<-|[]]]]; destruct k as [|[|[|[|k]]]]; cbn in N; try discriminate; injection N as <-; tauto.
    - change (g_elts fan3) with [A; B; C]. intro H. repeat (destruct H as [(-> & H)|H]; [injection H as -> ->; split; [cbn; tauto|reflexivity]|]). destruct H as (-> & H). injection H as -> ->. split; [cbn; tauto|reflexivity]. }
  destruct V as [->|[->|[->| ->]]]; cbn [Z.eqb Pos.eqb negb]; (split; [discriminate|]); (split; [unfold A, B, C; repeat constructor; intro H; repeat (destruct H as [H|H]; [discriminate H|]); destruct H|]); (split; [intros e k; rewrite IT; cbn [In]; split; [intro H; repeat (destruct H as [H|H]; [injection H as <- <-; tauto|]); destruct H|
    intro H; repeat (destruct H as [(-> & H)|H]; [try (exfalso; discriminate); injection H as ->; cbn; tauto|]); destruct H as (-> & H); try (exfalso; discriminate); injection H as ->; cbn; tauto]|]); split.
  1,3,5,7: intros [|[|[|n]]] x y X Y; cbn in X, Y; try discriminate; injection X as <-; injection Y as <-; eexists; split; reflexivity.
  all: cbn [length nth_error Nat.sub]; intros x y X Y; injection X as <-; injection Y as <-; first [split; eexists; split; reflexivity|eexists; split; reflexivity].
Qed.
Example c128_case : exists b, bcAssign true fan3 fan3Fine plainSon [0; 1; 2; 3; 4; 5]%Z 18 = Done b /\ globalDofCount (bc_map b) = 3%nat.
Proof. eexists. split; [lazy -[Ropp IZR Rplus Rminus Rmult Rdiv Rinv]; reflexivity|reflexivity]. Qed.
