(** Proofs for C15-C20. *)
From Coq Require Import List NArith ZArith Bool Lia Permutation.
Import ListNotations.
From Verif Require Import FmmModel FmmSpec.
Local Open Scope N_scope.

(** ---- exhaustive checks over the 1024 coordinates ---- *)
Fixpoint allb (k : nat) (p : N -> bool) : bool :=
  match k with
  | O => p 0
  | S k => allb k (fun x => p (2 * x)) && allb k (fun x => p (2 * x + 1))
  end.
Lemma allb_ok k : forall p, allb k p = true -> forall x, x < 2 ^ N.of_nat k -> p x = true.
Proof.
  induction k as [|k IH]; intros p H x Hx.
  - cbn in Hx. assert (x = 0) by lia. now subst.
  - cbn [allb] in H. apply andb_true_iff in H. destruct H as [H0 H1].
    rewrite Nat2N.inj_succ, N.pow_succ_r' in Hx.
    pose proof (N.div_mod x 2 ltac:(lia)) as E. pose proof (N.mod_lt x 2 ltac:(lia)) as M.
    assert (Hh : x / 2 < 2 ^ N.of_nat k) by (apply N.div_lt_upper_bound; lia).
    pose proof (IH _ H0 (x / 2) Hh) as P0. pose proof (IH _ H1 (x / 2) Hh) as P1. cbn beta in P0, P1.
    assert (C : x mod 2 = 0 \/ x mod 2 = 1) by (generalize dependent (x mod 2); intros; lia).
    destruct C as [C|C]; rewrite C in E.
    + rewrite E, N.add_0_r. exact P0.
    + rewrite E. exact P1.
Qed.
Definition all1024 (p : N -> bool) : bool := allb 10 p.
Lemma all1024_ok p : all1024 p = true -> forall x, x < 1024 -> p x = true.
Proof. exact (allb_ok 10 p). Qed.

(** arithmetic description of dilation: one octal digit per binary digit *)
Fixpoint D (k : nat) (x : N) : N :=
  match k with O => 0 | S k => x mod 2 + 8 * D k (x / 2) end.
Fixpoint C (k : nat) (n : N) : N :=
  match k with O => 0 | S k => n mod 2 + 2 * C k (n / 8) end.

Definition m0 := 0x09249249.
Lemma dilate_D x : x < 1024 -> dilate3_bits x = D 10 x.
Proof.
  intros H. apply N.eqb_eq. revert x H.
  apply (all1024_ok (fun x => dilate3_bits x =? D 10 x)). vm_compute. reflexivity.
Qed.
Lemma contract_dilate x : x < 1024 -> contract3 (dilate3_bits x) = x.
Proof.
  intros H. apply N.eqb_eq. revert x H.
  apply (all1024_ok (fun x => contract3 (dilate3_bits x) =? x)). vm_compute. reflexivity.
Qed.
Lemma dil_mask x : x < 1024 -> N.land (dilate3_bits x) m0 = dilate3_bits x.
Proof.
  intros H. apply N.eqb_eq. revert x H.
  apply (all1024_ok (fun x => N.land (dilate3_bits x) m0 =? dilate3_bits x)). vm_compute. reflexivity.
Qed.
Definition masks_ok (d x : N) : bool :=
  (N.land (N.shiftl (dilate3_bits x) 1) m0 =? 0) && (N.land (N.shiftl (dilate3_bits x) 2) m0 =? 0)
  && (N.land (N.shiftr (dilate3_bits x) 1) m0 =? 0) && (N.land (N.shiftr (dilate3_bits x) 2) m0 =? 0).
Lemma dil_masks x : x < 1024 ->
  N.land (N.shiftl (dilate3_bits x) 1) m0 = 0 /\ N.land (N.shiftl (dilate3_bits x) 2) m0 = 0 /\
  N.land (N.shiftr (dilate3_bits x) 1) m0 = 0 /\ N.land (N.shiftr (dilate3_bits x) 2) m0 = 0.
Proof.
  intros H. assert (E : masks_ok 0 x = true).
  { revert x H. apply all1024_ok. vm_compute. reflexivity. }
  unfold masks_ok in E. rewrite !andb_true_iff, !N.eqb_eq in E. tauto.
Qed.

Lemma contract_mask n : contract3 n = contract3 (N.land n m0).
Proof. unfold contract3, m0. rewrite <- N.land_assoc, N.land_diag. reflexivity. Qed.

Lemma lor_land_l a b c : N.land (N.lor a b) c = N.lor (N.land a c) (N.land b c).
Proof. apply N.land_lor_distr_l. Qed.

Definition mor (x y z : N) : N :=
  N.lor (N.lor (dilate3_bits x) (N.shiftl (dilate3_bits y) 1)) (N.shiftl (dilate3_bits z) 2).
Lemma morton_some x y z : x < 1024 -> y < 1024 -> z < 1024 -> morton x y z = Some (mor x y z).
Proof.
  intros Hx Hy Hz. unfold morton, dilate3.
  replace (0x3FF <? x) with false by (symmetry; apply N.ltb_ge; lia).
  replace (0x3FF <? y) with false by (symmetry; apply N.ltb_ge; lia).
  replace (0x3FF <? z) with false by (symmetry; apply N.ltb_ge; lia). reflexivity.
Qed.
Lemma morton_none x y z : 1024 <= x \/ 1024 <= y \/ 1024 <= z -> morton x y z = None.
Proof.
  intros H. unfold morton, dilate3.
  destruct (0x3FF <? x) eqn:E1; [reflexivity|]. destruct (0x3FF <? y) eqn:E2; [reflexivity|].
  destruct (0x3FF <? z) eqn:E3; [reflexivity|].
  apply N.ltb_ge in E1, E2, E3. exfalso. lia.
Qed.

Lemma shr_shl a : N.shiftr (N.shiftl a 2) 1 = N.shiftl a 1.
Proof. rewrite !N.shiftl_mul_pow2, N.shiftr_div_pow2. change (2^2) with (2 * 2). change (2^1) with 2.
  rewrite N.mul_assoc. apply N.div_mul. lia. Qed.
Lemma shr_shl1 a : N.shiftr (N.shiftl a 1) 1 = a.
Proof. rewrite N.shiftr_shiftl_l by lia. apply N.shiftl_0_r. Qed.
Lemma shr_shl2 a : N.shiftr (N.shiftl a 2) 2 = a.
Proof. rewrite N.shiftr_shiftl_l by lia. apply N.shiftl_0_r. Qed.
Lemma shr_shl3 a : N.shiftr (N.shiftl a 1) 2 = N.shiftr a 1.
Proof.
  replace 2 with (1 + 1) by lia. rewrite <- N.shiftr_shiftr. rewrite shr_shl1. reflexivity.
Qed.

Lemma deMorton_mor x y z : x < 1024 -> y < 1024 -> z < 1024 -> deMorton (mor x y z) = (x, y, z).
Proof.
  intros Hx Hy Hz.
  destruct (dil_masks x Hx) as (X1 & X2 & X3 & X4).
  destruct (dil_masks y Hy) as (Y1 & Y2 & Y3 & Y4).
  destruct (dil_masks z Hz) as (Z1 & Z2 & Z3 & Z4).
  unfold deMorton, mor. f_equal; [f_equal|].
  - rewrite contract_mask, !lor_land_l, Y1, Z2, !N.lor_0_r, dil_mask by assumption. now apply contract_dilate.
  - rewrite contract_mask, !N.shiftr_lor, shr_shl, shr_shl1, !lor_land_l, X3, Z1, N.lor_0_l, N.lor_0_r, dil_mask by assumption.
    now apply contract_dilate.
  - rewrite contract_mask, !N.shiftr_lor, shr_shl2, shr_shl3, !lor_land_l, X4, Y3, !N.lor_0_l, dil_mask by assumption.
    now apply contract_dilate.
Qed.

(** lor as + *)
Lemma lor_add a b : N.land a b = 0 -> N.lor a b = a + b.
Proof. intros H. rewrite N.add_nocarry_lxor by exact H. symmetry. apply N.lxor_lor. exact H. Qed.
Lemma mor_add x y z : x < 1024 -> y < 1024 -> z < 1024 ->
  mor x y z = D 10 x + 2 * D 10 y + 4 * D 10 z.
Proof.
  intros Hx Hy Hz. unfold mor.
  destruct (dil_masks y Hy) as (Y1 & _). destruct (dil_masks z Hz) as (Z1 & Z2 & _).
  assert (E1 : N.land (dilate3_bits x) (N.shiftl (dilate3_bits y) 1) = 0).
  { rewrite <- (dil_mask x) by exact Hx. rewrite <- N.land_assoc, (N.land_comm m0), Y1. apply N.land_0_r. }
  assert (E2 : N.land (dilate3_bits x) (N.shiftl (dilate3_bits z) 2) = 0).
  { rewrite <- (dil_mask x) by exact Hx. rewrite <- N.land_assoc, (N.land_comm m0), Z2. apply N.land_0_r. }
  assert (E3 : N.land (N.shiftl (dilate3_bits y) 1) (N.shiftl (dilate3_bits z) 2) = 0).
  { replace (N.shiftl (dilate3_bits z) 2) with (N.shiftl (N.shiftl (dilate3_bits z) 1) 1)
      by (rewrite N.shiftl_shiftl; reflexivity).
    rewrite <- N.shiftl_land.
    replace (N.land (dilate3_bits y) (N.shiftl (dilate3_bits z) 1)) with 0; [apply N.shiftl_0_l|].
    rewrite <- (dil_mask y) by exact Hy. rewrite <- N.land_assoc, (N.land_comm m0), Z1. symmetry. apply N.land_0_r. }
  rewrite (lor_add (N.lor _ _)).
  - rewrite lor_add by exact E1. rewrite !N.shiftl_mul_pow2, !dilate_D by assumption.
    change (2^1) with 2. change (2^2) with 4. lia.
  - rewrite lor_land_l, E2, E3. reflexivity.
Qed.

(** ---- arithmetic of D ---- *)
Lemma D_bound k : forall x, 7 * D k x < 8 ^ N.of_nat k.
Proof.
  induction k as [|k IH]; intros x; [cbn; lia|].
  cbn [D]. rewrite Nat2N.inj_succ, N.pow_succ_r'. pose proof (IH (x / 2)). pose proof (N.mod_lt x 2). lia.
Qed.
Lemma D_split k j x : x < 2 ^ N.of_nat k -> D (k + j) x = D k x.
Proof.
  revert x. induction k as [|k IH]; intros x Hx.
  - cbn in Hx. assert (x = 0) by lia. subst. cbn. clear. induction j as [|j IHj]; [reflexivity|]. cbn. rewrite IHj. reflexivity.
  - cbn [D Nat.add]. rewrite IH; [reflexivity|].
    rewrite Nat2N.inj_succ, N.pow_succ_r' in Hx. apply N.div_lt_upper_bound; lia.
Qed.
Lemma C_bound k : forall n, C k n < 2 ^ N.of_nat k.
Proof.
  induction k as [|k IH]; intros n; [cbn; lia|].
  cbn [C]. rewrite Nat2N.inj_succ, N.pow_succ_r'. pose proof (IH (n / 8)). pose proof (N.mod_lt n 2). lia.
Qed.
Lemma DC k : forall n, n < 8 ^ N.of_nat k -> n = D k (C k n) + 2 * D k (C k (n / 2)) + 4 * D k (C k (n / 4)).
Proof.
  induction k as [|k IH]; intros n Hn; [cbn in Hn; cbn; lia|].
  rewrite Nat2N.inj_succ, N.pow_succ_r' in Hn.
  cbn [D C].
  assert (A : forall a, (a mod 2 + 2 * C k (a / 8)) mod 2 = a mod 2 /\ (a mod 2 + 2 * C k (a / 8)) / 2 = C k (a / 8)).
  { intros a. pose proof (N.mod_lt a 2). split.
    - rewrite (N.mul_comm 2 (C k (a / 8))), N.mod_add by lia. apply N.mod_small. lia.
    - rewrite (N.mul_comm 2 (C k (a / 8))), N.div_add by lia. rewrite (N.div_small (a mod 2)) by lia. lia. }
  destruct (A n) as [-> ->]. destruct (A (n / 2)) as [-> ->]. destruct (A (n / 4)) as [-> ->].
  assert (Hb : n / 8 < 8 ^ N.of_nat k) by (apply N.div_lt_upper_bound; lia).
  pose proof (IH (n / 8) Hb) as E.
  replace (n / 2 / 8) with (n / 8 / 2) by (rewrite !N.div_div by lia; f_equal; lia).
  replace (n / 4 / 8) with (n / 8 / 4) by (rewrite !N.div_div by lia; f_equal; lia).
  assert (En : n = n mod 2 + 2 * (n / 2 mod 2) + 4 * (n / 4 mod 2) + 8 * (n / 8)).
  { pose proof (N.div_mod n 2). pose proof (N.div_mod (n / 2) 2). pose proof (N.div_mod (n / 4) 2).
    replace (n / 4) with (n / 2 / 2) in * by (rewrite N.div_div by lia; f_equal; lia).
    replace (n / 8) with (n / 2 / 2 / 2) by (rewrite !N.div_div by lia; f_equal; lia). lia. }
  lia.
Qed.

(** every code below 8^k is the code of coordinates below 2^k, k <= 10 *)
Lemma code_exists k n : (k <= 10)%nat -> n < 8 ^ N.of_nat k ->
  exists x y z, x < 2 ^ N.of_nat k /\ y < 2 ^ N.of_nat k /\ z < 2 ^ N.of_nat k /\ n = mor x y z.
Proof.
  intros Hk Hn. exists (C k n), (C k (n / 2)), (C k (n / 4)).
  assert (P : 2 ^ N.of_nat k <= 1024). { change 1024 with (2 ^ 10). apply N.pow_le_mono_r; lia. }
  pose proof (C_bound k n). pose proof (C_bound k (n / 2)). pose proof (C_bound k (n / 4)).
  repeat (split; [assumption|]). rewrite mor_add by lia.
  replace 10%nat with (k + (10 - k))%nat by lia.
  rewrite !D_split by assumption. apply DC, Hn.
Qed.
Lemma mor_bound k x y z : (k <= 10)%nat -> x < 2 ^ N.of_nat k -> y < 2 ^ N.of_nat k -> z < 2 ^ N.of_nat k ->
  mor x y z < 8 ^ N.of_nat k.
Proof.
  intros Hk Hx Hy Hz.
  assert (P : 2 ^ N.of_nat k <= 1024). { change 1024 with (2 ^ 10). apply N.pow_le_mono_r; lia. }
  rewrite mor_add by lia. replace 10%nat with (k + (10 - k))%nat by lia.
  rewrite !D_split by assumption.
  pose proof (D_bound k x). pose proof (D_bound k y). pose proof (D_bound k z). lia.
Qed.

(** general form on N levels *)
Lemma lvl_nat l : exists k, l = N.of_nat k.
Proof. exists (N.to_nat l). lia. Qed.

Lemma coords l n : l <= 10 -> onLevel l n ->
  cx n < 2 ^ l /\ cy n < 2 ^ l /\ cz n < 2 ^ l /\ n = mor (cx n) (cy n) (cz n).
Proof.
  intros Hl Hn. destruct (lvl_nat l) as (k & ->).
  assert (P : 2 ^ N.of_nat k <= 1024). { change 1024 with (2 ^ 10). apply N.pow_le_mono_r; lia. }
  destruct (@code_exists k n) as (x & y & z & Hx & Hy & Hz & E); [lia|exact Hn|].
  unfold cx, cy, cz. rewrite E, deMorton_mor by lia. cbn. auto.
Qed.
Lemma coords_mor x y z : x < 1024 -> y < 1024 -> z < 1024 ->
  cx (mor x y z) = x /\ cy (mor x y z) = y /\ cz (mor x y z) = z.
Proof. intros. unfold cx, cy, cz. rewrite deMorton_mor by assumption. auto. Qed.
Lemma mor_level l x y z : l <= 10 -> x < 2 ^ l -> y < 2 ^ l -> z < 2 ^ l -> onLevel l (mor x y z).
Proof. intros Hl. destruct (lvl_nat l) as (k & ->). intros. apply mor_bound; lia. Qed.
Lemma pow_le_1024 l : l <= 10 -> 2 ^ l <= 1024.
Proof. intros. change 1024 with (2 ^ 10). apply N.pow_le_mono_r; lia. Qed.

Lemma same_coords l m n : l <= 10 -> onLevel l m -> onLevel l n ->
  cx m = cx n -> cy m = cy n -> cz m = cz n -> m = n.
Proof.
  intros Hl Hm Hn Ex Ey Ez. destruct (coords l m Hl Hm) as (_ & _ & _ & ->).
  destruct (coords l n Hl Hn) as (_ & _ & _ & ->). congruence.
Qed.

(** ---- parents and children ---- *)
Lemma mor_children x y z a b c : x < 512 -> y < 512 -> z < 512 -> a < 2 -> b < 2 -> c < 2 ->
  mor (2 * x + a) (2 * y + b) (2 * z + c) = 8 * mor x y z + a + 2 * b + 4 * c.
Proof.
  intros. rewrite !mor_add by lia.
  assert (S : forall u e, u < 512 -> e < 2 -> D 10 (2 * u + e) = e + 8 * D 10 u).
  { intros u e Hu He. change 10%nat with (S 9). cbn [D].
    replace ((2 * u + e) mod 2) with e.
    2:{ replace (2 * u + e) with (e + u * 2) by lia. rewrite N.mod_add by lia. symmetry. apply N.mod_small. exact He. }
    replace ((2 * u + e) / 2) with u.
    2:{ replace (2 * u + e) with (u * 2 + e) by lia. rewrite N.div_add_l by lia. rewrite (N.div_small e) by lia. lia. }
    pose proof (D_split 9 1 u ltac:(cbn; lia)) as E9. change (9 + 1)%nat with 10%nat in E9. cbn [D] in E9. rewrite E9. reflexivity. }
  rewrite !S by assumption. lia.
Qed.

Lemma getParent_div n : getParent n = n / 8.
Proof. unfold getParent. rewrite N.shiftr_div_pow2. reflexivity. Qed.
Lemma firstChild_mul n : getFirstChild n = 8 * n.
Proof. unfold getFirstChild. rewrite N.shiftl_mul_pow2. change (2 ^ 3) with 8. lia. Qed.

Lemma parent_coords l n : l < 10 -> onLevel (l + 1) n ->
  onLevel l (getParent n) /\ cx (getParent n) = cx n / 2 /\ cy (getParent n) = cy n / 2 /\ cz (getParent n) = cz n / 2.
Proof.
  intros Hl Hn.
  assert (On : onLevel l (getParent n)).
  { unfold onLevel in *. rewrite getParent_div. apply N.div_lt_upper_bound; [lia|].
    rewrite N.pow_add_r in Hn. change (8 ^ 1) with 8 in Hn. lia. }
  split; [exact On|].
  destruct (coords (l + 1) n) as (Hx & Hy & Hz & E); [lia|exact Hn|].
  assert (P : 2 ^ (l + 1) <= 1024) by (apply pow_le_1024; lia).
  assert (B : forall u, u < 2 ^ (l + 1) -> u / 2 < 512 /\ u = 2 * (u / 2) + u mod 2 /\ u mod 2 < 2).
  { intros u Hu. split; [apply N.div_lt_upper_bound; lia|]. split; [apply N.div_mod; lia|apply N.mod_lt; lia]. }
  destruct (B _ Hx) as (X1 & X2 & X3). destruct (B _ Hy) as (Y1 & Y2 & Y3). destruct (B _ Hz) as (Z1 & Z2 & Z3).
  assert (Eg : getParent n = mor (cx n / 2) (cy n / 2) (cz n / 2)).
  { rewrite getParent_div. rewrite E at 1. rewrite X2 at 1. rewrite Y2 at 1. rewrite Z2 at 1.
    rewrite mor_children by assumption.
    symmetry. apply N.div_unique with (r := cx n mod 2 + 2 * (cy n mod 2) + 4 * (cz n mod 2)); lia. }
  rewrite Eg. apply coords_mor; lia.
Qed.

Lemma children_iff n c : (getFirstChild n <= c <= getLastChild n) <-> getParent c = n.
Proof.
  unfold getLastChild. fold (getFirstChild n). rewrite firstChild_mul, getParent_div. split.
  - intros H. symmetry. apply N.div_unique with (r := c - 8 * n); lia.
  - intros E. pose proof (N.div_mod c 8 ltac:(lia)). pose proof (N.mod_lt c 8 ltac:(lia)). rewrite E in H. generalize dependent (c mod 8). intros; lia.
Qed.

(** ---- neighbours ---- *)
Lemma neighbor_loop_ok x y z sides offs : sides <= 1024 ->
  exists l, neighbor_loop x y z sides offs = Some l /\
    l = map (fun o => let '(i, j, k) := o in
          mor (Z.to_N (Z.of_N x + i)) (Z.to_N (Z.of_N y + j)) (Z.to_N (Z.of_N z + k)))
        (filter (fun o => let '(i, j, k) := o in
           (negb ((i =? 0) && (j =? 0) && (k =? 0))
            && inRange sides (Z.of_N x + i) (Z.of_N y + j) (Z.of_N z + k))%Z%bool) offs).
Proof.
  intros Hs. induction offs as [|[[i j] k] offs IH]; [exists []; split; reflexivity|].
  destruct IH as (l & E & El). cbn [neighbor_loop filter].
  destruct ((i =? 0) && (j =? 0) && (k =? 0))%Z%bool eqn:E0; cbn [negb andb].
  - exists l. split; [exact E|exact El].
  - destruct (inRange sides (Z.of_N x + i) (Z.of_N y + j) (Z.of_N z + k)) eqn:Er.
    + rewrite E. unfold inRange in Er. rewrite !andb_true_iff, !Z.leb_le, !Z.ltb_lt in Er.
      rewrite morton_some by lia. eexists. split; [reflexivity|]. cbn [map]. rewrite El. reflexivity.
    + exists l. split; [exact E|exact El].
Qed.

Lemma in_offsets i j k : In (i, j, k) offsets <-> (-1 <= i <= 1 /\ -1 <= j <= 1 /\ -1 <= k <= 1)%Z.
Proof.
  split.
  - unfold offsets. cbn. intros H. repeat (destruct H as [H|H]; [inversion H; subst; lia|]). destruct H.
  - intros (Hi & Hj & Hk).
    assert (Ei : (i = -1 \/ i = 0 \/ i = 1)%Z) by lia.
    assert (Ej : (j = -1 \/ j = 0 \/ j = 1)%Z) by lia.
    assert (Ek : (k = -1 \/ k = 0 \/ k = 1)%Z) by lia.
    unfold offsets. apply in_flat_map. exists i. split; [cbn; lia|].
    apply in_flat_map. exists j. split; [cbn; lia|]. apply in_map_iff. exists k. split; [reflexivity|cbn; lia].
Qed.
Lemma offsets_NoDup : NoDup offsets.
Proof. unfold offsets. cbn. repeat (constructor; [cbn; intuition discriminate|]). constructor. Qed.

Lemma NoDup_map_on A B (f : A -> B) l : NoDup l ->
  (forall a b, In a l -> In b l -> f a = f b -> a = b) -> NoDup (map f l).
Proof.
  induction 1 as [|a l Hn Hd IH]; intros Hinj; cbn; constructor.
  - rewrite in_map_iff. intros (b & Eb & Hb). assert (b = a) by (apply Hinj; auto; [now right|now left]). subst. contradiction.
  - apply IH. intros; apply Hinj; auto; now right.
Qed.

Lemma nodesPerSide_pow l : getNodesPerSide l = 2 ^ l.
Proof. unfold getNodesPerSide. rewrite N.shiftl_mul_pow2. lia. Qed.
Lemma nodesPerLevel_pow l : getNodesPerLevel l = 8 ^ l.
Proof. unfold getNodesPerLevel. rewrite N.shiftl_mul_pow2, N.pow_mul_r, N.mul_1_l. reflexivity. Qed.

Lemma neighbors_ok l n : l <= 10 -> onLevel l n ->
  exists nb, getNeighbors n l = Some nb /\ NoDup nb /\
    forall m, In m nb <-> (onLevel l m /\ adjacent m n /\ m <> n).
Proof.
  intros Hl Hn. destruct (coords l n Hl Hn) as (Hx & Hy & Hz & En).
  pose proof (pow_le_1024 l Hl) as P.
  unfold getNeighbors. destruct (deMorton n) as [[x y] z] eqn:Ed.
  assert (Ex : cx n = x) by (unfold cx; now rewrite Ed). assert (Ey : cy n = y) by (unfold cy; now rewrite Ed).
  assert (Ez : cz n = z) by (unfold cz; now rewrite Ed).
  rewrite Ex, Ey, Ez in *. rewrite nodesPerSide_pow.
  destruct (neighbor_loop_ok x y z (2 ^ l) offsets P) as (nb & E & Enb).
  exists nb. split; [exact E|].
  assert (Hin : forall i j k, In (i, j, k) (filter (fun o => let '(i, j, k) := o in
           (negb ((i =? 0) && (j =? 0) && (k =? 0))
            && inRange (2 ^ l) (Z.of_N x + i) (Z.of_N y + j) (Z.of_N z + k))%Z%bool) offsets) <->
     ((-1 <= i <= 1 /\ -1 <= j <= 1 /\ -1 <= k <= 1) /\ (i <> 0 \/ j <> 0 \/ k <> 0) /\
      (0 <= Z.of_N x + i < Z.of_N (2 ^ l) /\ 0 <= Z.of_N y + j < Z.of_N (2 ^ l) /\ 0 <= Z.of_N z + k < Z.of_N (2 ^ l)))%Z).
  { intros i j k. rewrite filter_In, in_offsets, andb_true_iff, negb_true_iff.
    unfold inRange. rewrite !andb_true_iff, !Z.leb_le, !Z.ltb_lt, andb_false_iff, andb_false_iff, !Z.eqb_neq.
    tauto. }
  split.
  - rewrite Enb. apply NoDup_map_on; [apply NoDup_filter, offsets_NoDup|].
    intros [[i j] k] [[i' j'] k'] H H' Em.
    apply Hin in H, H'. destruct H as (H1 & H2 & H3), H' as (H1' & H2' & H3').
    assert (Eq : deMorton (mor (Z.to_N (Z.of_N x + i)) (Z.to_N (Z.of_N y + j)) (Z.to_N (Z.of_N z + k)))
       = deMorton (mor (Z.to_N (Z.of_N x + i')) (Z.to_N (Z.of_N y + j')) (Z.to_N (Z.of_N z + k')))) by now rewrite Em.
    rewrite !deMorton_mor in Eq by lia. inversion Eq. f_equal; [f_equal|]; lia.
  - intros m. rewrite Enb, in_map_iff. split.
    + intros ([[i j] k] & <- & H). apply Hin in H. destruct H as (H1 & H2 & H3).
      destruct (coords_mor (Z.to_N (Z.of_N x + i)) (Z.to_N (Z.of_N y + j)) (Z.to_N (Z.of_N z + k))) as (C1 & C2 & C3); try lia.
      split; [apply mor_level; lia|]. split.
      * unfold adjacent, near. rewrite C1, C2, C3, Ex, Ey, Ez. lia.
      * intros Em. rewrite Em in C1, C2, C3. lia.
    + intros (Hm & Ha & Hne). destruct (coords l m Hl Hm) as (Mx & My & Mz & Em).
      exists (Z.of_N (cx m) - Z.of_N x, Z.of_N (cy m) - Z.of_N y, Z.of_N (cz m) - Z.of_N z)%Z.
      split.
      { rewrite Em at 4. f_equal; lia. }
      apply Hin. unfold adjacent, near in Ha. rewrite Ex, Ey, Ez in Ha.
      split; [lia|]. split; [|lia].
      destruct (N.eq_dec (cx m) x) as [A|A]; [|lia]. destruct (N.eq_dec (cy m) y) as [A'|A']; [|lia].
      destruct (N.eq_dec (cz m) z) as [A''|A'']; [|lia].
      exfalso. apply Hne. apply (same_coords l); auto; congruence.
Qed.

(** ---- interaction lists ---- *)
Lemma in_range f k c : In c (range f k) <-> f <= c < f + N.of_nat k.
Proof.
  revert f. induction k as [|k IH]; intros f; cbn [range]; [cbn; lia|].
  cbn [In]. rewrite IH. lia.
Qed.
Lemma range_NoDup f k : NoDup (range f k).
Proof.
  revert f. induction k as [|k IH]; intros f; cbn [range]; constructor; [|apply IH].
  rewrite in_range. lia.
Qed.
Lemma NoDup_flat_map' A B (g : A -> list B) l : NoDup l ->
  (forall a, In a l -> NoDup (g a)) ->
  (forall a b c, In a l -> In b l -> In c (g a) -> In c (g b) -> a = b) -> NoDup (flat_map g l).
Proof.
  induction 1 as [|a l Hn Hd IH]; intros H1 H2; cbn; [constructor|].
  assert (Hr : NoDup (flat_map g l)). { apply IH; intros; [apply H1; now right|eapply H2; eauto; now right]. }
  revert Hr. assert (Ha : NoDup (g a)) by (apply H1; now left).
  assert (Hdis : forall c, In c (g a) -> ~ In c (flat_map g l)).
  { intros c Hc Hc'. apply in_flat_map in Hc'. destruct Hc' as (b & Hb & Hcb).
    assert (a = b) by (eapply H2; eauto; [now left|now right]). subst. contradiction. }
  clear - Ha Hdis. induction Ha as [|c gl Hc Hg IHg]; intros Hr; cbn; [exact Hr|].
  constructor.
  - rewrite in_app_iff. intros [H|H]; [contradiction|]. eapply Hdis; [now left|exact H].
  - apply IHg; [|exact Hr]. intros x Hx. apply Hdis. now right.
Qed.

Lemma onLevel_child l q c : onLevel l q -> getParent c = q -> onLevel (l + 1) c.
Proof.
  unfold onLevel. rewrite getParent_div. intros H E. rewrite N.pow_add_r. change (8 ^ 1) with 8.
  pose proof (N.div_mod c 8). pose proof (N.mod_lt c 8). lia.
Qed.

Lemma near_half a b : near a b -> near (a / 2) (b / 2).
Proof.
  unfold near. intros [H1 H2]. split.
  - rewrite <- (N.div_add b 1 2) by lia. apply N.div_le_mono; lia.
  - rewrite <- (N.div_add a 1 2) by lia. apply N.div_le_mono; lia.
Qed.
Lemma half_near a b : a / 2 = b / 2 -> near a b.
Proof.
  unfold near. intros H. pose proof (N.div_mod a 2 ltac:(lia)) as Ha. pose proof (N.div_mod b 2 ltac:(lia)) as Hb.
  pose proof (N.mod_lt a 2 ltac:(lia)) as H1. pose proof (N.mod_lt b 2 ltac:(lia)) as H2.
  rewrite H in Ha. revert Ha Hb H1 H2. generalize (a mod 2) (b mod 2) (b / 2). intros; lia.
Qed.

Lemma interaction_ok emp l n : 1 <= l <= 10 -> onLevel l n ->
  exists il, interactionList emp n l = Some il /\ NoDup il /\
    forall m, In m il <->
      (onLevel l m /\ emp m l = false /\ adjacent (getParent m) (getParent n) /\ ~ adjacent m n).
Proof.
  intros Hl Hn. unfold interactionList.
  assert (Hpn : onLevel (l - 1) (getParent n)).
  { apply (parent_coords (l - 1)); [lia|]. replace (l - 1 + 1) with l by lia. exact Hn. }
  destruct (N.ltb_spec 1 l) as [Hl2|Hl1].
  - destruct (neighbors_ok (l - 1) (getParent n)) as (pn & Epn & Npn & Hpn'); [lia|exact Hpn|].
    destruct (neighbors_ok l n) as (nb & Enb & Nnb & Hnb); [lia|exact Hn|].
    rewrite Epn, Enb. eexists. split; [reflexivity|]. split.
    + apply NoDup_flat_map'; [exact Npn| |].
      * intros q _. apply NoDup_filter, range_NoDup.
      * intros q q' c Hq Hq' Hc Hc'. apply filter_In in Hc, Hc'.
        destruct Hc as [Hc _], Hc' as [Hc' _]. apply in_range in Hc, Hc'.
        assert (A : forall q, getFirstChild q <= c < getFirstChild q + N.of_nat 8 -> getParent c = q).
        { intros q0 H0. apply children_iff. unfold getLastChild. fold (getFirstChild q0). lia. }
        rewrite <- (A q Hc). apply A. exact Hc'.
    + intros m. rewrite in_flat_map. 
      assert (Hex : existsb (N.eqb m) nb = false <-> ~ In m nb).
      { rewrite <- not_true_iff_false, existsb_exists. split.
        - intros H Hi. apply H. exists m. split; [exact Hi|apply N.eqb_refl].
        - intros H (y & Hy & E). apply N.eqb_eq in E. subst. contradiction. }
      split.
      * intros (q & Hq & Hm). apply filter_In in Hm. destruct Hm as [Hr Hm].
        rewrite andb_true_iff, !negb_true_iff in Hm. destruct Hm as [He Hm]. apply Hex in Hm.
        apply in_range in Hr. assert (Eq : getParent m = q).
        { apply children_iff. unfold getLastChild. fold (getFirstChild q). lia. }
        apply Hpn' in Hq. destruct Hq as (Hq1 & Hq2 & Hq3).
        assert (Om : onLevel l m). { replace l with (l - 1 + 1) by lia. eapply onLevel_child; eauto. }
        split; [exact Om|]. split; [exact He|]. rewrite Eq. split; [exact Hq2|].
        intros Ha. apply Hm. apply Hnb. split; [exact Om|]. split; [exact Ha|].
        intros ->. apply Hq3. symmetry. exact Eq.
      * intros (Om & He & Hap & Hna).
        assert (Hpm : onLevel (l - 1) (getParent m)).
        { apply (parent_coords (l - 1)); [lia|]. replace (l - 1 + 1) with l by lia. exact Om. }
        exists (getParent m). split.
        { apply Hpn'. split; [exact Hpm|]. split; [exact Hap|].
          intros Ep. apply Hna.
          destruct (parent_coords (l - 1) m) as (_ & M1 & M2 & M3); [lia|replace (l - 1 + 1) with l by lia; exact Om|].
          destruct (parent_coords (l - 1) n) as (_ & N1 & N2 & N3); [lia|replace (l - 1 + 1) with l by lia; exact Hn|].
          rewrite Ep in M1, M2, M3.
          split; [|split]; apply half_near; congruence. }
        apply filter_In. split.
        { apply in_range. pose proof (proj2 (children_iff (getParent m) m) eq_refl) as H.
          unfold getLastChild in H. fold (getFirstChild (getParent m)) in H. lia. }
        rewrite andb_true_iff, !negb_true_iff. split; [exact He|]. apply Hex.
        intros Hi. apply Hnb in Hi. tauto.
  - assert (l = 1) by lia. subst l. exists []. split; [reflexivity|]. split; [constructor|].
    intros m. split; [intros []|]. intros (Om & _ & _ & Hna). exfalso. apply Hna.
    destruct (coords 1 m) as (M1 & M2 & M3 & _); [lia|exact Om|].
    destruct (coords 1 n) as (N1 & N2 & N3 & _); [lia|exact Hn|].
    change (2 ^ 1) with 2 in *. unfold adjacent, near. lia.
Qed.

(** ---- covering ---- *)
Lemma ancestor_0 n : ancestor 0 n = n.
Proof. unfold ancestor. rewrite N.pow_0_r. apply N.div_1_r. Qed.
Lemma ancestor_S k n : ancestor (k + 1) n = getParent (ancestor k n).
Proof.
  unfold ancestor. rewrite getParent_div, N.pow_add_r, N.div_div; [reflexivity| |lia]. apply N.pow_nonzero. lia.
Qed.
Lemma ancestor_level k L n : k <= L -> onLevel L n -> onLevel (L - k) (ancestor k n).
Proof.
  intros Hk. unfold onLevel, ancestor. intros H. apply N.div_lt_upper_bound; [apply N.pow_nonzero; lia|].
  rewrite <- N.pow_add_r. replace (k + (L - k)) with L by lia. exact H.
Qed.
Lemma adjacent_sym m n : adjacent m n -> adjacent n m.
Proof. unfold adjacent, near. tauto. Qed.
Lemma adjacent_parent l m n : l < 10 -> onLevel (l + 1) m -> onLevel (l + 1) n ->
  adjacent m n -> adjacent (getParent m) (getParent n).
Proof.
  intros Hl Hm Hn (A & B & C0).
  destruct (parent_coords l m Hl Hm) as (_ & M1 & M2 & M3).
  destruct (parent_coords l n Hl Hn) as (_ & N1 & N2 & N3).
  unfold adjacent. rewrite M1, M2, M3, N1, N2, N3. split; [|split]; now apply near_half.
Qed.
Lemma adjacent_up L s t : L <= 10 -> onLevel L s -> onLevel L t ->
  forall j k, k + N.of_nat j <= L -> adjacent (ancestor k s) (ancestor k t) ->
  adjacent (ancestor (k + N.of_nat j) s) (ancestor (k + N.of_nat j) t).
Proof.
  intros HL Hs Ht. induction j as [|j IH]; intros k Hk Ha; [now rewrite N.add_0_r|].
  replace (k + N.of_nat (S j)) with ((k + N.of_nat j) + 1) by lia. rewrite !ancestor_S.
  apply (adjacent_parent (L - (k + N.of_nat j) - 1)); [lia| | |].
  - replace (L - (k + N.of_nat j) - 1 + 1) with (L - (k + N.of_nat j)) by lia. apply ancestor_level; [lia|exact Hs].
  - replace (L - (k + N.of_nat j) - 1 + 1) with (L - (k + N.of_nat j)) by lia. apply ancestor_level; [lia|exact Ht].
  - apply IH; [lia|exact Ha].
Qed.

Lemma near_dec a b : {near a b} + {~ near a b}.
Proof.
  unfold near. destruct (N.leb a (b + 1)) eqn:E1, (N.leb b (a + 1)) eqn:E2;
  rewrite ?N.leb_le, ?N.leb_gt in *; [left|right|right|right]; lia.
Qed.
Lemma adjacent_dec m n : {adjacent m n} + {~ adjacent m n}.
Proof.
  unfold adjacent. destruct (near_dec (cx m) (cx n)), (near_dec (cy m) (cy n)), (near_dec (cz m) (cz n)); tauto.
Qed.

(** the unique level: k counted from the leaves *)
Lemma cover_exists L s t : L <= 10 -> onLevel L s -> onLevel L t -> ~ adjacent s t ->
  exists k, k < L /\ ~ adjacent (ancestor k s) (ancestor k t) /\
    adjacent (ancestor (k + 1) s) (ancestor (k + 1) t).
Proof.
  intros HL Hs Ht Hna.
  assert (Hroot : adjacent (ancestor L s) (ancestor L t)).
  { assert (E : forall n, onLevel L n -> ancestor L n = 0) by (intros; apply N.div_small; assumption).
    rewrite !E by assumption. unfold adjacent, near. lia. }
  assert (H : forall j, N.of_nat j <= L -> adjacent (ancestor (N.of_nat j) s) (ancestor (N.of_nat j) t) ->
    exists k, k < N.of_nat j /\ ~ adjacent (ancestor k s) (ancestor k t) /\
      adjacent (ancestor (k + 1) s) (ancestor (k + 1) t)).
  { induction j as [|j IH]; intros Hj Ha.
    - cbn in Ha. rewrite !ancestor_0 in Ha. contradiction.
    - destruct (adjacent_dec (ancestor (N.of_nat j) s) (ancestor (N.of_nat j) t)) as [Hd|Hd].
      + destruct IH as (k & Hk & H1 & H2); [lia|exact Hd|]. exists k. split; [lia|auto].
      + exists (N.of_nat j). split; [lia|]. split; [exact Hd|].
        replace (N.of_nat j + 1) with (N.of_nat (S j)) by lia. exact Ha. }
  destruct (lvl_nat L) as (j & ->). apply H; [lia|exact Hroot].
Qed.
Lemma cover_unique L s t k k' : L <= 10 -> onLevel L s -> onLevel L t ->
  k < L -> k' < L ->
  ~ adjacent (ancestor k s) (ancestor k t) -> adjacent (ancestor (k + 1) s) (ancestor (k + 1) t) ->
  ~ adjacent (ancestor k' s) (ancestor k' t) -> adjacent (ancestor (k' + 1) s) (ancestor (k' + 1) t) ->
  k = k'.
Proof.
  intros HL Hs Ht Hk Hk' A1 A2 B1 B2.
  assert (W : forall a b, a < b -> b < L -> adjacent (ancestor (a + 1) s) (ancestor (a + 1) t) ->
     ~ adjacent (ancestor b s) (ancestor b t) -> False).
  { intros a b Hab Hb H1 H2. apply H2.
    pose proof (adjacent_up L s t HL Hs Ht (N.to_nat (b - a - 1)) (a + 1)) as U.
    replace (a + 1 + N.of_nat (N.to_nat (b - a - 1))) with b in U by lia.
    apply U; [lia|exact H1]. }
  destruct (N.lt_trichotomy k k') as [H|[H|H]]; [|exact H|]; exfalso; eauto.
Qed.

Lemma near_field_partition emp L s t : 1 <= L <= 10 -> onLevel L s -> onLevel L t ->
  (forall k, k < L -> emp (ancestor k s) (L - k) = false) ->
  ((adjacent s t /\ forall k il, k < L -> interactionList emp (ancestor k t) (L - k) = Some il -> ~ In (ancestor k s) il) \/
   (~ adjacent s t /\ exists k, k < L /\
      (exists il, interactionList emp (ancestor k t) (L - k) = Some il /\ In (ancestor k s) il) /\
      forall k', k' < L -> (exists il, interactionList emp (ancestor k' t) (L - k') = Some il /\ In (ancestor k' s) il) -> k' = k)).
Proof.
  intros HL Hs Ht He.
  assert (I : forall k, k < L -> exists il, interactionList emp (ancestor k t) (L - k) = Some il /\
     (In (ancestor k s) il <-> (adjacent (ancestor (k + 1) s) (ancestor (k + 1) t) /\ ~ adjacent (ancestor k s) (ancestor k t)))).
  { intros k Hk. destruct (interaction_ok emp (L - k) (ancestor k t)) as (il & E & _ & H); [lia|apply ancestor_level; [lia|exact Ht]|].
    exists il. split; [exact E|]. rewrite H, !ancestor_S.
    assert (onLevel (L - k) (ancestor k s)) by (apply ancestor_level; [lia|exact Hs]).
    pose proof (He k Hk). tauto. }
  destruct (adjacent_dec s t) as [Ha|Hna].
  - left. split; [exact Ha|]. intros k il Hk E Hin. destruct (I k Hk) as (il' & E' & H). rewrite E in E'. inversion E'; subst il'.
    apply H in Hin. destruct Hin as [_ Hn]. apply Hn.
    pose proof (adjacent_up L s t) as U. specialize (U ltac:(lia) Hs Ht (N.to_nat k) 0).
    replace (0 + N.of_nat (N.to_nat k)) with k in U by lia. apply U; [lia|]. now rewrite !ancestor_0.
  - right. split; [exact Hna|]. destruct (cover_exists L s t) as (k & Hk & H1 & H2); try assumption; [lia|].
    exists k. split; [exact Hk|]. split.
    + destruct (I k Hk) as (il & E & H). exists il. split; [exact E|]. apply H. auto.
    + intros k' Hk' (il & E & Hin). destruct (I k' Hk') as (il' & E' & H). rewrite E in E'. inversion E'; subst il'.
      apply H in Hin. eapply (cover_unique L s t k' k); try eassumption; try tauto; lia.
Qed.

(** whatever the emptiness flags: never in two lists, never both near and far *)
Lemma at_most_once emp L s t : 1 <= L <= 10 -> onLevel L s -> onLevel L t ->
  forall k k', k < L -> k' < L ->
  (exists il, interactionList emp (ancestor k t) (L - k) = Some il /\ In (ancestor k s) il) ->
  (exists il, interactionList emp (ancestor k' t) (L - k') = Some il /\ In (ancestor k' s) il) ->
  k = k' /\ ~ adjacent s t.
Proof.
  intros HL Hs Ht k k' Hk Hk' (il & E & Hi) (il' & E' & Hi').
  assert (I : forall k il, k < L -> interactionList emp (ancestor k t) (L - k) = Some il -> In (ancestor k s) il ->
     (adjacent (ancestor (k + 1) s) (ancestor (k + 1) t) /\ ~ adjacent (ancestor k s) (ancestor k t))).
  { clear k k' Hk Hk' il il' E E' Hi Hi'. intros k il Hk E Hi.
    destruct (interaction_ok emp (L - k) (ancestor k t)) as (il' & E' & _ & H); [lia|apply ancestor_level; [lia|exact Ht]|].
    rewrite E in E'. inversion E'; subst il'. apply H in Hi. rewrite !ancestor_S. tauto. }
  destruct (I k il Hk E Hi) as [A1 A2]. destruct (I k' il' Hk' E' Hi') as [B1 B2]. split.
  - apply (cover_unique L s t k k'); try assumption; lia.
  - intros Ha. apply A2.
    pose proof (adjacent_up L s t) as U. specialize (U ltac:(lia) Hs Ht (N.to_nat k) 0).
    replace (0 + N.of_nat (N.to_nat k)) with k in U by lia. apply U; [lia|]. now rewrite !ancestor_0.
Qed.
