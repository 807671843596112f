From Coq Require Import Reals Lra Sorted.
From Verif Require Import Base ComplexR SegModel SegSpec SegProofs AsmModel SpaceModel SpaceSpec SpaceProofs SpaceP1Proofs SpaceRwgProofs PolySpec PolyProofs6 VecModel VecSpec VecProofs3 VecProofs4
  BaryModel BarySpec BaryProofs BaryProofs2 BaryProofs3 BaryProofs4 BcModel BcSpec BcProofs BcProofs2 BcProofs3.
Set Implicit Arguments.
Unset Strict Implicit.
Local Open Scope Z_scope.

Section Fans.
Variables (g fg : sgrid) (son : Z -> nat -> Z).
Hypotheses (G : gridOk g) (TR : triangulation g) (RF : refinement g fg son) (OS : orientedSurface g) (NE : noIsolatedEdge g) (IM : g_n0 fg <= INT_MAX).
Notation corner := (corner g).
Notation face := (face son).
Notation fe := (fe fg son).
Notation fT := (fT fg son).
Definition cv (x : selt * nat) : Z := vtx (fst x) (snd x).
Definition inE (x : selt * nat) : Z := edg (fst x) (sideInto (snd x)).
Definition outE (x : selt * nat) : Z := edg (fst x) (sideOutOf (snd x)).
Lemma turns_eq x y : corner x -> corner y -> (turnsInto x y <-> inE x = outE y).
Proof.
  intros (I & K) (I' & K'). destruct (sides_lt K) as (A & _). destruct (sides_lt K') as (_ & B & _). unfold turnsInto. split.
  - intros (i & S & S'). apply (side_edg TR) in S as (_ & S); [|exact I]. apply (side_edg TR) in S' as (_ & S'); [|exact I']. unfold inE, outE. congruence.
  - intro E. exists (inE x). split; [now apply (side_edg TR)|]. apply (side_edg TR); [exact I'|]. auto.
Qed.
Definition cyc (l : list (selt * nat)) (x y : selt * nat) : Prop :=
  (exists n, nth_error l n = Some x /\ nth_error l (S n) = Some y) \/ (nth_error l (length l - 1) = Some x /\ nth_error l 0 = Some y).
Lemma cyc_in l x y : cyc l x y -> In x l /\ In y l.
Proof. intros [(n & A & B)|(A & B)]; split; eapply nth_error_In; eassumption. Qed.
Lemma cyc_succ l x : In x l -> exists y, cyc l x y.
Proof.
  intro I. apply In_nth_error in I as (n & N). destruct (nth_error l (S n)) as [y|] eqn:E; [exists y; left; eauto|].
  apply nth_error_None in E. assert (n < length l)%nat by (apply nth_error_Some; congruence). destruct l as [|y l]; [destruct n; discriminate|].
  exists y. right. split; [|reflexivity]. replace (length (y :: l) - 1)%nat with n by (cbn [length] in *; lia). exact N.
Qed.
Lemma cyc_pred l y : In y l -> exists x, cyc l x y.
Proof.
  intro I. apply In_nth_error in I as ([|n] & N).
  - destruct l as [|z l]; [discriminate|]. cbn in N. injection N as ->. destruct (nth_error (y :: l) (length (y :: l) - 1)) as [x|] eqn:E.
    + exists x. right. auto.
    + apply nth_error_None in E. cbn [length] in E. lia.
  - destruct (nth_error l n) as [x|] eqn:E; [exists x; left; eauto|]. apply nth_error_None in E. assert (S n < length l)%nat by (apply nth_error_Some; congruence). lia.
Qed.
(** the gap of an open fan *)
Definition isGap (o : bool) (l : list (selt * nat)) (x y : selt * nat) : Prop := o = true /\ nth_error l (length l - 1) = Some x /\ nth_error l 0 = Some y.
Lemma fan_in v o l x : fanAt g v o l -> (In x l <-> corner x /\ cv x = v).
Proof.
  intros (_ & _ & H & _). destruct x as (e, k). rewrite H. unfold corner, cv. cbn [fst snd]. split.
  - intros (I & K). apply (corner_vtx TR) in K as (K & ->); auto.
  - intros ((I & K) & <-). split; [exact I|]. apply (corner_vtx TR); auto.
Qed.
Lemma fan_cyc v o l x y : fanAt g v o l -> cyc l x y -> inE x = outE y \/ (isGap o l x y /\ boundaryEdge g (inE x) /\ boundaryEdge g (outE y)).
Proof.
  intros F C. pose proof (cyc_in C) as (Ix & Iy). pose proof (proj1 (fan_in x F) Ix) as (Cx & _). pose proof (proj1 (fan_in y F) Iy) as (Cy & _).
  destruct F as (_ & _ & _ & A & B). destruct C as [(n & X & Y)|(X & Y)].
  - left. apply turns_eq; auto. eapply A; eassumption.
  - specialize (B _ _ Y X). destruct o.
    + right. destruct B as ((i & S & Bi) & (j & S' & Bj)). split; [split; auto|]. destruct Cx as (Ix' & Kx), Cy as (Iy' & Ky).
      apply (side_edg TR) in S as (_ & ->); [|exact Iy']. apply (side_edg TR) in S' as (_ & ->); [|exact Ix']. auto.
    + left. now apply turns_eq.
Qed.
Lemma fan_of x : corner x -> exists o l, fanAt g (cv x) o l /\ In x l.
Proof.
  intro C. destruct OS as (_ & H). destruct C as (I & K). destruct (H (cv x)) as (o & l & F); [now apply (vtx_range G TR)|]. exists o, l. split; [exact F|]. apply (fan_in x F). split; [split; assumption|reflexivity].
Qed.
Lemma inSide x : corner x -> In (s_index (fst x), sideInto (snd x)) (sidesOn g (inE x)).
Proof. intros (I & K). apply (in_sides TR). exists (fst x). destruct (sides_lt K) as (A & _). auto. Qed.
Lemma outSide x : corner x -> In (s_index (fst x), sideOutOf (snd x)) (sidesOn g (outE x)).
Proof. intros (I & K). apply (in_sides TR). exists (fst x). destruct (sides_lt K) as (_ & A & _). auto. Qed.
Lemma idx_eq x y : corner x -> corner y -> s_index (fst x) = s_index (fst y) -> fst x = fst y.
Proof. intros (I & _) (I' & _) E. now apply (@indices_inj _ _ _ (gridOk_indices G)). Qed.
Lemma corner_eq x y : corner x -> corner y -> s_index (fst x) = s_index (fst y) -> cv x = cv y -> x = y.
Proof.
  intros C C' E V. pose proof (idx_eq C C' E) as Q. destruct x as (e, k), y as (e', k'). cbn [fst] in Q. subst e'. f_equal. unfold cv in V. cbn [fst snd] in V. destruct C, C'. eapply (vtx_inj TR); eassumption.
Qed.
Lemma in_out_neq x y : corner x -> corner y -> cv x = cv y -> inE x = outE y -> s_index (fst x) <> s_index (fst y).
Proof.
  intros C C' V E Q. assert (x = y) by now apply corner_eq. subst y. destruct C as (I & K). destruct (sides_lt K) as (A & B & D & _). apply D. eapply (edg_inj TR); eassumption.
Qed.
Lemma out_unique x y : corner x -> corner y -> cv x = cv y -> outE x = outE y -> x = y.
Proof.
  intros C C' V E. destruct (Z.eq_dec (s_index (fst x)) (s_index (fst y))) as [Q|Q]; [now apply corner_eq|]. exfalso.
  destruct (fan_of C) as (o & l & F & I). destruct (cyc_pred I) as (z & CY). destruct (fan_cyc F CY) as [T|(_ & _ & B)].
  - pose proof (cyc_in CY) as (Iz & _). apply (fan_in z F) in Iz as (Cz & Vz). pose proof (inSide Cz) as S1. rewrite T in S1. pose proof (outSide C) as S2. pose proof (outSide C') as S3. rewrite <- E in S3.
    destruct OS as (M & _). destruct (three_sides (M (outE x)) S2 S3 S1) as [X|X]; [congruence| |]; injection X as X1 _.
    + revert X1. now apply in_out_neq.
    + revert X1. apply in_out_neq; auto; congruence.
  - pose proof (outSide C) as S2. pose proof (outSide C') as S3. rewrite <- E in S3. pose proof (one_side B S2 S3). congruence.
Qed.
Lemma in_unique x y : corner x -> corner y -> cv x = cv y -> inE x = inE y -> x = y.
Proof.
  intros C C' V E. destruct (Z.eq_dec (s_index (fst x)) (s_index (fst y))) as [Q|Q]; [now apply corner_eq|]. exfalso.
  destruct (fan_of C) as (o & l & F & I). destruct (cyc_succ I) as (z & CY). destruct (fan_cyc F CY) as [T|(_ & B & _)].
  - pose proof (cyc_in CY) as (_ & Iz). apply (fan_in z F) in Iz as (Cz & Vz). pose proof (outSide Cz) as S1. rewrite <- T in S1. pose proof (inSide C) as S2. pose proof (inSide C') as S3. rewrite <- E in S3.
    destruct OS as (M & _). destruct (three_sides (M (inE x)) S2 S3 S1) as [X|X]; [congruence| |]; injection X as X1 _; symmetry in X1; revert X1.
    + apply in_out_neq; auto.
    + apply in_out_neq; auto; congruence.
  - pose proof (inSide C) as S2. pose proof (inSide C') as S3. rewrite <- E in S3. pose proof (one_side B S2 S3). congruence.
Qed.
(** boundary edges at a vertex *)
Lemma out_boundary v o l y : fanAt g v o l -> In y l -> boundaryEdge g (outE y) -> o = true /\ nth_error l 0 = Some y.
Proof.
  intros F I B. destruct (cyc_pred I) as (z & CY). destruct (fan_cyc F CY) as [T|((A & _ & Y) & _)]; [|auto]. exfalso.
  pose proof (cyc_in CY) as (Iz & _). apply (fan_in z F) in Iz as (Cz & Vz). apply (fan_in y F) in I as (Cy & Vy).
  pose proof (inSide Cz) as S1. rewrite T in S1. pose proof (one_side B S1 (outSide Cy)) as X. injection X as X _. revert X. apply in_out_neq; auto; congruence.
Qed.
Lemma in_boundary v o l x : fanAt g v o l -> In x l -> boundaryEdge g (inE x) -> o = true /\ nth_error l (length l - 1) = Some x.
Proof.
  intros F I B. destruct (cyc_succ I) as (z & CY). destruct (fan_cyc F CY) as [T|((A & Y & _) & _)]; [|auto]. exfalso.
  pose proof (cyc_in CY) as (_ & Iz). apply (fan_in z F) in Iz as (Cz & Vz). apply (fan_in x F) in I as (Cy & Vy).
  pose proof (outSide Cz) as S1. rewrite <- T in S1. pose proof (one_side B S1 (inSide Cy)) as X. injection X as X _. symmetry in X. revert X. apply in_out_neq; auto; congruence.
Qed.

(** ---- edges of the refinement ---- *)
Lemma kind_odd0 x : kindOf x true 0 = VM (cv x) (outE x). Proof. reflexivity. Qed.
Lemma kind_even1 x : kindOf x false 1 = VM (cv x) (inE x). Proof. reflexivity. Qed.
Lemma fe_centre x : corner x -> fe x true 1 = fe x false 0.
Proof. intro C. apply (fe_kind G TR RF); auto. Qed.
Lemma fe_turn x y : corner x -> corner y -> cv x = cv y -> inE x = outE y -> fe x false 1 = fe y true 0.
Proof. intros C C' V E. apply (fe_kind G TR RF); auto. rewrite kind_odd0, kind_even1. congruence. Qed.
Definition fineCount (z : Z) : nat := length (sidesOn fg z).
Lemma count_two x odd t y odd' t' : corner x -> corner y -> (t < 3)%nat -> (t' < 3)%nat -> kindOf x odd t = kindOf y odd' t' -> (x, odd) <> (y, odd') -> fineCount (fe x odd t) <> 1%nat.
Proof.
  intros C C' T T' K D. assert (E : fe x odd t = fe y odd' t') by now apply (fe_kind G TR RF).
  assert (S1 : In (face x odd, t) (sidesOn fg (fe x odd t))) by (apply (fine_sides G RF); exists x, odd; auto).
  assert (S2 : In (face y odd', t') (sidesOn fg (fe x odd t))) by (apply (fine_sides G RF); exists y, odd'; auto).
  unfold fineCount. intro Q. pose proof (one_side Q S1 S2) as X. injection X as X _. apply (face_inj G RF) in X as (-> & ->); auto.
Qed.
(** the other half of a side *)
Definition mate (x : selt * nat) (odd : bool) : selt * nat := (fst x, if odd then firstCorner (sideOutOf (snd x)) else secondCorner (sideInto (snd x))).
Lemma mate_ok x odd : corner x -> corner (mate x odd) /\ kindOf x odd 2 = kindOf (mate x odd) (negb odd) 2.
Proof.
  intros (I & K). unfold mate, corner, kindOf, mside. cbn [fst snd]. destruct (sides_lt K) as (A & B & _). destruct (corners_lt A) as (_ & A2 & _). destruct (corners_lt B) as (B1 & _). destruct odd; cbn [negb].
  - split; [auto|]. now rewrite (proj1 (into_first B)).
  - split; [auto|]. now rewrite (proj2 (into_first A)).
Qed.
Lemma count_VB x : corner x -> fineCount (fe x true 1) <> 1%nat /\ fineCount (fe x false 0) <> 1%nat.
Proof. intro C. split; [apply (@count_two x true 1 x false 0)|apply (@count_two x false 0 x true 1)]; auto; congruence. Qed.
Lemma count_MB x odd : corner x -> fineCount (fe x odd 2) <> 1%nat.
Proof. intro C. destruct (mate_ok odd C) as (M & E). apply (@count_two x odd 2 (mate x odd) (negb odd) 2); auto. destruct odd; cbn; congruence. Qed.
Lemma count_VM x odd i v t : corner x -> (t < 3)%nat -> kindOf x odd t = VM v i -> (fineCount (fe x odd t) = 1%nat <-> boundaryEdge g i).
Proof.
  intros C T K.
  assert (KK : odd = true /\ t = 0%nat /\ v = cv x /\ i = outE x \/ odd = false /\ t = 1%nat /\ v = cv x /\ i = inE x).
  { revert K. unfold kindOf. dig t; destruct odd; intro K; try discriminate; injection K as <- <-; auto. }
  split.
  - intro Q. destruct KK as [(-> & -> & -> & ->)|(-> & -> & -> & ->)].
    + destruct (fan_of C) as (o & l & F & I). destruct (cyc_pred I) as (z & CY). destruct (fan_cyc F CY) as [E|(_ & _ & B)]; [|exact B]. exfalso. revert Q.
      pose proof (cyc_in CY) as (Iz & _). apply (fan_in z F) in Iz as (Cz & Vz). apply (@count_two x true 0 z false 1); auto; [rewrite kind_even1, K; congruence|congruence].
    + destruct (fan_of C) as (o & l & F & I). destruct (cyc_succ I) as (z & CY). destruct (fan_cyc F CY) as [E|(_ & B & _)]; [|exact B]. exfalso. revert Q.
      pose proof (cyc_in CY) as (_ & Iz). apply (fan_in z F) in Iz as (Cz & Vz). apply (@count_two x false 1 z true 0); auto; [rewrite kind_odd0, K; congruence|congruence].
  - intro B. unfold fineCount.
    assert (U : forall p, In p (sidesOn fg (fe x odd t)) -> p = (face x odd, t)).
    { intros (f, t') P. apply (fine_sides G RF) in P as (y & odd' & Cy & -> & T' & E). apply (fe_kind G TR RF) in E; auto. rewrite K in E.
      assert (KY : odd' = true /\ t' = 0%nat /\ v = cv y /\ i = outE y \/ odd' = false /\ t' = 1%nat /\ v = cv y /\ i = inE y).
      { revert E. unfold kindOf. dig t'; destruct odd'; intro E; try discriminate; injection E as <- <-; auto. }
      destruct KK as [(-> & -> & V1 & I1)|(-> & -> & V1 & I1)], KY as [(-> & -> & V2 & I2)|(-> & -> & V2 & I2)].
      - assert (y = x) by (apply out_unique; auto; congruence). now subst y.
      - exfalso. assert (X : s_index (fst y) <> s_index (fst x)) by (apply in_out_neq; auto; congruence). apply X.
        pose proof (inSide Cy) as S1. rewrite <- I2 in S1. pose proof (outSide C) as S2. rewrite <- I1 in S2. pose proof (one_side B S1 S2). congruence.
      - exfalso. assert (X : s_index (fst x) <> s_index (fst y)) by (apply in_out_neq; auto; congruence). apply X.
        pose proof (outSide Cy) as S1. rewrite <- I2 in S1. pose proof (inSide C) as S2. rewrite <- I1 in S2. pose proof (one_side B S1 S2). congruence.
      - assert (y = x) by (apply in_unique; auto; congruence). now subst y. }
    pose proof (sides_NoDup (FG RF) (fe x odd t)) as ND.
    assert (S1 : In (face x odd, t) (sidesOn fg (fe x odd t))) by (apply (fine_sides G RF); exists x, odd; auto).
    destruct (sidesOn fg (fe x odd t)) as [|p [|q r]]; [destruct S1|reflexivity|]. exfalso. inversion ND as [|? ? NI _]. apply NI. rewrite (U p), (U q); cbn; auto.
Qed.
End Fans.
