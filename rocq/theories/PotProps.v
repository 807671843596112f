(** C149, C150: potential operators *)
From Coq Require Import List Arith Bool ZArith Lia.
Import ListNotations.
From Verif Require Import Base ArrayModel AsmModel QuadModel MatAlg PyOpModel LocalCacheProofs PyOpSpec PyOpProofs PyBopModel PyBopSpec PyBopProofs PyBopProps PyBlockModel PyBlockSpec PyGfModel PyGfSpec PyGfProofs PyGfLists PyGfProps PotModel PotSpec PotProofs SlvProofs.
Set Implicit Arguments.

Section Thms.
  Variable K : star_ring.
  Variable mass : space -> space -> mat K.
  Variable pinv : mat K -> mat K.
  Hypothesis HG : goodInverse pinv.
  Hypothesis HM : massSized mass.
  Notation grun := (grun mass pinv). Notation means := (means mass pinv). Notation orderly := (orderly mass pinv).
  Variable T : Type.
  Variable teq : T -> T -> bool.
  Hypothesis TE : forall a b, teq a b = true <-> a = b.
  Add Ring KrPot : (sr_ring K).

  Lemma reshape_ok n k (y : mat K) : 0 < n -> m_rows y = n * k -> m_cols y = 1 ->
    exists z, reshapeF n y = Ok z /\ m_rows z = n /\ m_cols z = k /\ forall c p, m_at z c p = m_at y (p * n + c) 0.
  Proof.
    intros N R C. unfold reshapeF. rewrite R, C, Nat.mul_1_r. apply Nat.ltb_lt in N as N'. rewrite N'.
    assert (M : n * k mod n = 0) by (rewrite Nat.mul_comm; apply Nat.mod_mul; lia). rewrite M. cbn [andb Nat.eqb]. eexists. split; [reflexivity|]. cbn.
    split; [reflexivity|]. split; [rewrite Nat.mul_comm; apply Nat.div_mul; lia|reflexivity].
  Qed.

  (** C149: a linear combination of potentials with the same components, points and degrees of freedom can be built; its value for a
      function is, component by component and point by point, its matrix times the coefficients; evaluation changes nothing *)
  Theorem C149_evaluate e n d (x : points T) : pSized e -> sameKind n d x e ->
    exists P, pbuild teq e = Ok P /\ p_comps P = n /\ s_dofs (p_space P) = d /\ pointsEq (p_points P) x /\
      forall cs i s v, orderly cs -> nth_error (means cs) i = Some (s, v) -> s_dofs s = d ->
        exists y, evaluate mass pinv P i (grun cs) = (grun (cs ++ [GCoeff i]), Ok y) /\ m_rows y = n /\ m_cols y = pt_cols x /\
          forall c p, c < n -> p < pt_cols x -> m_at y c p = m_at (mMul (pmatrix e) v) (p * n + c) 0.
  Proof.
    intros SZ SK. destruct (@build_same K pinv HG T teq TE _ n d x SZ SK) as (P & EP & G & P1 & P2 & P3). exists P. split; [exact EP|]. split; [exact P1|]. split; [exact P2|]. split; [exact P3|].
    intros cs i s v O Nm SD. destruct (@read_coefficients K mass pinv HG HM cs i s v O Nm) as (c & g & Q & _ & _ & M & VS & _).
    destruct G as (W & _ & DM & PC & SH). pose proof (@wf_realises K pinv HG _ _ W DM) as (_ & D & _).
    assert (DC : m_rows (pmatrix e) = n * pt_cols x /\ m_cols (pmatrix e) = d).
    { destruct (@den_shape K pinv HG _ W) as [D1 D2]. rewrite SH in D1, D2. cbn in D1, D2. destruct DM as (M1 & M2 & _). destruct P3 as (_ & P3 & _). rewrite <- M1, <- M2, D1, D2. rewrite P1, P3. auto. }
    destruct DC as [R1 R2]. pose proof M as (M1 & M2 & M3). destruct VS as [V1 V2].
    destruct (D c) as (y & Ey & Y1 & Y2 & Y3); [congruence|lia|]. cbn in Y1, Y2.
    destruct (@reshape_ok n (pt_cols x) y) as (z & Ez & Z1 & Z2 & Z3); [congruence|congruence|congruence|].
    exists z. split; [|split; [exact Z1|split; [exact Z2|]]].
    - unfold evaluate, gthen. rewrite Q. unfold gret. rewrite Ey. cbn [bind]. rewrite P1, Ez. reflexivity.
    - intros a p Ha Hp. assert (L : p * n + a < n * pt_cols x) by nia. rewrite Z3, Y3 by lia. cbn. apply bsum_ext. intros k Hk. apply in_seq in Hk. f_equal. apply M3; lia.
  Qed.
  (** so evaluation is linear in the potential, and in the function *)
  Theorem C149_linear a b al n d (x : points T) : pSized a -> pSized b -> sameKind n d x a -> sameKind n d x b ->
    exists P A B, pbuild teq (PAdd (PScale a al) b) = Ok P /\ pbuild teq a = Ok A /\ pbuild teq b = Ok B /\
      forall cs i s v, orderly cs -> nth_error (means cs) i = Some (s, v) -> s_dofs s = d ->
        exists y ya yb, snd (evaluate mass pinv P i (grun cs)) = Ok y /\ snd (evaluate mass pinv A i (grun cs)) = Ok ya /\ snd (evaluate mass pinv B i (grun cs)) = Ok yb /\
          meq y (mAdd (mScale al ya) yb).
  Proof.
    intros SA SB KA KB. destruct (@C149_evaluate (PAdd (PScale a al) b) n d x) as (P & EP & _ & _ & _ & FP); [split; assumption|split; assumption|].
    destruct (@C149_evaluate a n d x SA KA) as (A & EA & _ & _ & _ & FA). destruct (@C149_evaluate b n d x SB KB) as (B & EB & _ & _ & _ & FB).
    exists P, A, B. split; [exact EP|]. split; [exact EA|]. split; [exact EB|]. intros cs i s v O Nm SD.
    destruct (FP cs i s v O Nm SD) as (y & E1 & R1 & C1 & V1). destruct (FA cs i s v O Nm SD) as (ya & E2 & R2 & C2 & V2). destruct (FB cs i s v O Nm SD) as (yb & E3 & R3 & C3 & V3).
    exists y, ya, yb. rewrite E1, E2, E3. do 3 (split; [reflexivity|]). split; [cbn; congruence|]. split; [cbn; congruence|]. intros c p Hc Hp. rewrite R1 in Hc. rewrite C1 in Hp.
    cbn [mAdd mScale m_at]. rewrite V1, V2, V3 by assumption. cbn [pmatrix mMul mAdd mScale m_at m_cols].
    destruct (@build_same K pinv HG T teq TE _ n d x SA KA) as (PA & _ & GA & A1 & A2 & A3). destruct (@build_same K pinv HG T teq TE _ n d x SB KB) as (PB & _ & GB & B1 & B2 & B3).
    assert (CC : m_cols (pmatrix a) = m_cols (pmatrix b)).
    { destruct GA as (WA & _ & (_ & DA & _) & _ & SHA), GB as (WB & _ & (_ & DB & _) & _ & SHB). destruct (@den_shape K pinv HG _ WA) as [_ X1]. destruct (@den_shape K pinv HG _ WB) as [_ X2].
      rewrite SHA in X1. rewrite SHB in X2. cbn in X1, X2. congruence. }
    rewrite <- CC. rewrite <- bsum_mul_l, <- bsum_add. apply bsum_ext. intros k _. ring.
  Qed.
  (** C150: potentials with other components, other points or another number of degrees of freedom cannot be added or subtracted, and
      functions with another number of degrees of freedom are rejected *)
  Theorem C150_mismatch_partial a b P Q r : pSized a -> pSized b -> bases (fun _ _ _ x => pt_rows x = r) a -> bases (fun _ _ _ x => pt_rows x = r) b ->
    pbuild teq a = Ok P -> pbuild teq b = Ok Q ->
    (p_comps P <> p_comps Q \/ ~ pointsEq (p_points P) (p_points Q) \/ s_dofs (p_space P) <> s_dofs (p_space Q) -> potAdd teq P Q = Throws /\ potSub teq P Q = Throws) /\
    (forall cs i s v, orderly cs -> nth_error (means cs) i = Some (s, v) -> s_dofs s <> s_dofs (p_space P) -> snd (evaluate mass pinv P i (grun cs)) = Throws).
  Proof.
    intros SA SB RA RB EP EQ. destruct (@build_kind K pinv HG T teq TE _ _ SA RA _ EP) as (GP & RP & _). destruct (@build_kind K pinv HG T teq TE _ _ SB RB _ EQ) as (GQ & RQ & _). split.
    - intros D. split.
      + eapply add_bad; try eassumption; [congruence|]. intros (X & Y & Z). destruct D as [D|[D|D]]; auto.
      + unfold potSub. eapply add_bad with (q := potNeg Q); try eassumption; [apply good_neg; exact GQ|cbn; congruence|]. intros (X & Y & Z). cbn in X, Y, Z. destruct D as [D|[D|D]]; auto.
    - intros cs i s v O Nm SD. destruct (@read_coefficients K mass pinv HG HM cs i s v O Nm) as (c & g & Ec & _ & _ & (M1 & M2 & _) & [V1 V2] & _).
      unfold evaluate, gthen. rewrite Ec. cbn [gret snd]. rewrite (@apply_bad K pinv T P _ c GP); [reflexivity|congruence|congruence].
  Qed.
End Thms.

(** C150 fails: a function in another space, and potentials on other spaces, are accepted when the numbers of degrees of freedom agree; and
    a * P raises although P * a does not *)
Definition pts1 : points Z := Pts 3 1 (fun i _ => Z.of_nat i).
Definition potA : pexpr Zsr Z := PBase (@Mat Zsr 3 2 (fun i j => (Z.of_nat i + 1) * (Z.of_nat j + 1))%Z) 3 spA pts1.
Definition potB : pexpr Zsr Z := PBase (@Mat Zsr 3 2 (fun i j => (Z.of_nat i + 1) * (Z.of_nat j + 1))%Z) 3 spB pts1.
Theorem C150_mismatch_refuted :
  exists P Q R cs y, pbuild Z.eqb potA = Ok P /\ pbuild Z.eqb potB = Ok Q /\ p_space P <> p_space Q /\ potAdd Z.eqb P Q = Ok R /\
    orderly massAB (@mT Zsr) cs /\ map fst (means massAB (@mT Zsr) cs) = [spB] /\ snd (evaluate massAB (@mT Zsr) P 0 (grun massAB (@mT Zsr) cs)) = Ok y /\
    @potScaleLeft Zsr Z 2%Z P = Throws.
Proof.
  do 3 eexists. exists [GNew spB None (vec2 1 2)]. eexists. split; [reflexivity|]. split; [reflexivity|]. split; [discriminate|]. split; [vm_compute; reflexivity|].
  split. { intros l c r0 E. symmetry in E. split_history l E; try (destruct l; discriminate). all: split; [split; reflexivity|exact Logic.I]. }
  split; [reflexivity|]. split; [vm_compute; reflexivity|reflexivity].
Qed.
Example C149_example : pSized (PSub (@PScale Zsr Z potA 2%Z) (PNeg potA)) /\ sameKind 3 2 pts1 (PSub (@PScale Zsr Z potA 2%Z) (PNeg potA)) /\
  exists P y, pbuild Z.eqb (PSub (@PScale Zsr Z potA 2%Z) (PNeg potA)) = Ok P /\ snd (evaluate massAB (@mT Zsr) P 0 (grun massAB (@mT Zsr) [GNew spA None (vec2 1 2)])) = Ok y /\
    (m_rows y, m_cols y, m_at y 2 0) = (3, 1, 45%Z).
Proof.
  split; [cbn; lia|]. split. { cbn. repeat split; reflexivity. } do 2 eexists. split; [reflexivity|]. split; [vm_compute; reflexivity|]. vm_compute. reflexivity.
Qed.
Example C150_example : bases (fun _ _ _ x => pt_rows x = 3) potA /\ bases (fun _ _ _ x => pt_rows x = 3) (PBase (@Mat Zsr 4 2 (fun i j => 1%Z)) 2 spA (Pts 3 2 (fun i _ => Z.of_nat i))).
Proof. split; reflexivity. Qed.

Print Assumptions C149_evaluate.
Print Assumptions C149_linear.
Print Assumptions C150_mismatch_partial.
Print Assumptions C150_mismatch_refuted.
