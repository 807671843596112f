From Coq Require Import Reals Lra Sorted.
From Verif Require Import Base ComplexR SegModel SegSpec SegProofs AsmModel SpaceModel SpaceSpec SpaceProofs SpaceP1Proofs SpaceRwgProofs PolySpec PolyProofs6 VecModel VecSpec VecProofs3 VecProofs4
  BaryModel BarySpec BaryProofs BaryProofs2 BaryProofs3 BaryProofs4 BcModel BcSpec BcProofs BcProofs2 BcProofs3 BcProofs4 BcProofs5 BcProofs6 BcProofs7 BcProofs8 BcProofs9 BcProofs10.
Set Implicit Arguments.
Unset Strict Implicit.
Local Open Scope Z_scope.

Section Edge.
Variables (g fg : sgrid) (son : Z -> nat -> Z) (order : list Z).
Hypotheses (G : gridOk g) (TR : triangulation g) (RF : refinement g fg son) (OS : orientedSurface g) (NE : noIsolatedEdge g) (IM : g_n0 fg <= INT_MAX).
Notation corner := (corner g).
Notation face := (face son).
Notation fe := (fe fg son).
Notation fT := (fT fg son).

Lemma turn_cyc v o l x y : fanAt g v o l -> corner x -> corner y -> cv x = v -> cv y = v -> inE x = outE y -> cyc l x y.
Proof.
  intros F Cx Cy Vx Vy E. assert (Ix : In x l) by (apply (fan_in TR x F); auto). destruct (cyc_succ Ix) as (z & CZ). pose proof (cyc_in CZ) as (_ & Iz). apply (fan_in TR z F) in Iz as (Cz & Vz).
  destruct (fan_cyc TR F CZ) as [T|(_ & B & _)].
  - assert (z = y) by (apply (out_unique G TR OS); auto; congruence). subst z. exact CZ.
  - exfalso. revert B. apply (@not_boundary g G TR x y); auto; congruence.
Qed.
Lemma fan_boundary v o l : fanAt g v o l -> (o = true <-> onBoundary g v).
Proof.
  intro F. pose proof F as (NN & _ & _ & _ & L5). split.
  - intro O. assert (LP : (0 < length l)%nat) by (destruct l; [contradiction|cbn; lia]). destruct (nth_error l 0) as [x|] eqn:X0; [|apply nth_error_None in X0; lia].
    destruct (nth_error l (length l - 1)) as [y|] eqn:Y; [|apply nth_error_None in Y; lia]. specialize (L5 x y eq_refl eq_refl). rewrite O in L5. destruct L5 as ((i & S1 & B) & _).
    assert (Ix : In x l) by (eapply nth_error_In; exact X0). pose proof (proj1 (fan_in TR x F) Ix) as ((I & K) & V). apply (side_edg TR) in S1 as (S1 & E); [|exact I].
    destruct (facet_ends TR I S1) as (f & F1 & F2 & F3). exists i, (fst x), f. split; [exact B|]. split; [exact I|]. split; [exact F1|]. split; [congruence|]. apply F3. right. destruct (sides_lt K) as (_ & _ & _ & _ & ->). symmetry. exact V.
  - intros (i & e & f & B & I & F1 & F2 & F3). destruct (proj1 TR e I) as (a & b & c & i0 & i1 & i2 & Ve & _ & Fe).
    assert (EX : exists s, (s < 3)%nat /\ edg e s = i /\ (v = vtx e (firstCorner s) \/ v = vtx e (secondCorner s))).
    { unfold edg, vtx. rewrite Fe in *. rewrite Ve. destruct F1 as [<-|[<-|[<-|[]]]]; cbn [fst snd] in *; subst i.
      - exists 0%nat. split; [lia|]. split; [reflexivity|]. cbn. destruct F3 as [<-|[<-|[]]]; auto.
      - exists 1%nat. split; [lia|]. split; [reflexivity|]. cbn. destruct F3 as [<-|[<-|[]]]; auto.
      - exists 2%nat. split; [lia|]. split; [reflexivity|]. cbn. destruct F3 as [<-|[<-|[]]]; auto. }
    destruct EX as (s & S & E & V). destruct (corners_lt S) as (K1 & K2 & _). destruct V as [V|V].
    + assert (H : In (e, firstCorner s) l) by (apply (fan_in TR _ F); split; [split; assumption|unfold cv; cbn; auto]).
      apply (in_boundary G TR F H). unfold inE. cbn [fst snd]. now rewrite (proj1 (into_first S)), E.
    + assert (H : In (e, secondCorner s) l) by (apply (fan_in TR _ F); split; [split; assumption|unfold cv; cbn; auto]).
      apply (out_boundary G TR F H). unfold outE. cbn [fst snd]. now rewrite (proj2 (into_first S)), E.
Qed.
Lemma fan_triangles v o l : fanAt g v o l -> trianglesAt g v = length l.
Proof.
  intro F. pose proof F as (_ & ND & _). unfold trianglesAt. rewrite <- (map_length fst l). apply same_length.
  - apply NoDup_filter, NoDup_indices. exact G.
  - apply NoDup_map_on; [exact ND|]. intros x y Ix Iy E. apply (fan_in TR x F) in Ix as (Cx & Vx). apply (fan_in TR y F) in Iy as (Cy & Vy). apply (corner_eq G TR); auto; congruence.
  - intro e. rewrite filter_In, in_map_iff. split.
    + intros (I & Q). destruct (in_dec Z.eq_dec v (s_verts e)) as [J|]; [|discriminate]. apply In_nth_error in J as (k & K). apply (corner_vtx TR) in K as (K & V); [|exact I].
      exists (e, k). split; [reflexivity|]. apply (fan_in TR _ F). split; [split; assumption|]. unfold cv. cbn. auto.
    + intros (x & <- & I). apply (fan_in TR x F) in I as ((I & K) & V). split; [exact I|]. destruct (in_dec Z.eq_dec v (s_verts (fst x))) as [|N]; [reflexivity|]. exfalso. apply N.
      eapply nth_error_In. apply (proj2 (@corner_vtx g TR (fst x) (snd x) v I)). auto.
Qed.
Lemma ends_of_edge A j e s : In A (g_elts g) -> In e (g_elts g) -> (j < 3)%nat -> (s < 3)%nat -> edg e s = edg A j ->
  let v0 := vtx A (firstCorner j) in let v1 := vtx A (secondCorner j) in
  (vtx e (firstCorner s) = v0 /\ vtx e (secondCorner s) = v1) \/ (vtx e (firstCorner s) = v1 /\ vtx e (secondCorner s) = v0).
Proof.
  intros IA Ie J S E v0 v1. pose proof (proj1 (same_edge TR Ie IA S J) E) as H. destruct (corners_lt S) as (K1 & K2 & K3).
  assert (D : vtx e (firstCorner s) <> vtx e (secondCorner s)) by (intro Q; apply K3; eapply (vtx_inj TR Ie); eauto).
  pose proof (proj1 (H (vtx e (firstCorner s))) (or_introl eq_refl)) as [Q1|Q1]; pose proof (proj1 (H (vtx e (secondCorner s))) (or_intror eq_refl)) as [Q2|Q2]; auto; congruence.
Qed.

(** pairs of sides on the same fine edge *)
Lemma kind_pairs x odd k y odd' k' : corner x -> corner y -> (k < 3)%nat -> (k' < 3)%nat -> kindOf x odd k = kindOf y odd' k' -> (x, odd, k) <> (y, odd', k') ->
  (x = y /\ (odd, k, odd', k') = (true, 1, false, 0)%nat) \/ (x = y /\ (odd, k, odd', k') = (false, 0, true, 1)%nat) \/
  (cv x = cv y /\ (odd, k, odd', k') = (false, 1, true, 0)%nat /\ inE x = outE y) \/ (cv x = cv y /\ (odd, k, odd', k') = (true, 0, false, 1)%nat /\ inE y = outE x) \/
  (y = mate x odd /\ odd' = negb odd /\ k = 2%nat /\ k' = 2%nat).
Proof.
  intros Cx Cy K K' E D. dig k; dig k'; destruct odd, odd'; try discriminate E; unfold kindOf in E; injection E as E1 E2.
  - exfalso. apply D. assert (x = y) by (apply (out_unique G TR OS); auto). now subst y.
  - exfalso. apply D. assert (x = y) by (apply (corner_eq G TR); auto). now subst y.
  - right. right. right. left. split; [exact E1|]. split; [reflexivity|]. symmetry. exact E2.
  - right. left. split; [now apply (corner_eq G TR)|reflexivity].
  - left. split; [now apply (corner_eq G TR)|reflexivity].
  - right. right. left. split; [exact E1|]. split; [reflexivity|exact E2].
  - exfalso. apply D. assert (x = y) by (apply (corner_eq G TR); auto). now subst y.
  - exfalso. apply D. assert (x = y) by (apply (in_unique G TR OS); auto). now subst y.
  - exfalso. apply D. pose proof (idx_eq G Cx Cy E2) as Q. destruct x as (e, a), y as (e', b). cbn [fst snd] in *. subst e'. destruct Cx as (I & Ka), Cy as (_ & Kb). cbn [fst snd] in *. unfold mside in E1.
    destruct (sides_lt Ka) as (_ & A1 & _ & _ & A2). destruct (sides_lt Kb) as (_ & B1 & _ & _ & B2). assert (sideOutOf a = sideOutOf b) by (eapply (edg_inj TR I); eauto). assert (a = b) by congruence. now subst b.
  - right. right. right. right. split; [|auto]. pose proof (idx_eq G Cx Cy E2) as Q. destruct x as (e, a), y as (e', b). cbn [fst snd] in *. subst e'. destruct Cx as (I & Ka), Cy as (_ & Kb). cbn [fst snd] in *. unfold mside in E1.
    destruct (sides_lt Ka) as (_ & A1 & _). destruct (sides_lt Kb) as (B0 & _ & _ & B2 & _). assert (sideOutOf a = sideInto b) by (eapply (edg_inj TR I); eauto). unfold mate. cbn [fst snd]. f_equal. congruence.
  - right. right. right. right. split; [|auto]. pose proof (idx_eq G Cx Cy E2) as Q. destruct x as (e, a), y as (e', b). cbn [fst snd] in *. subst e'. destruct Cx as (I & Ka), Cy as (_ & Kb). cbn [fst snd] in *. unfold mside in E1.
    destruct (sides_lt Ka) as (A1 & _). destruct (sides_lt Kb) as (_ & B0 & _ & _ & B2). assert (sideInto a = sideOutOf b) by (eapply (edg_inj TR I); eauto). unfold mate. cbn [fst snd]. f_equal. congruence.
  - exfalso. apply D. pose proof (idx_eq G Cx Cy E2) as Q. destruct x as (e, a), y as (e', b). cbn [fst snd] in *. subst e'. destruct Cx as (I & Ka), Cy as (_ & Kb). cbn [fst snd] in *. unfold mside in E1.
    destruct (sides_lt Ka) as (A1 & _ & _ & A2 & _). destruct (sides_lt Kb) as (B1 & _ & _ & B2 & _). assert (sideInto a = sideInto b) by (eapply (edg_inj TR I); eauto). assert (a = b) by congruence. now subst b.
Qed.
End Edge.
