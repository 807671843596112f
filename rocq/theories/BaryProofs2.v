(** Geometry of the sons, shape functions, scalar spaces. *)
From Coq Require Import Reals Lra Sorted.
From Verif Require Import Base ComplexR SegModel SegSpec SegProofs AsmModel AsmSpec SpaceModel SpaceSpec SpaceProofs SpaceP1Proofs
  PolySpec PolyProofs1 PolyProofs7 PolyModel SpaceRwgProofs VecModel VecSpec VecProofs VecProofs3 LagModel BaryModel BarySpec BaryProofs.
Set Implicit Arguments.
Unset Strict Implicit.
Local Open Scope R_scope.

(** ---- geometry ---- *)
Definition sonPoint (i : nat) (q : R * R) : R * R :=
  let (x, y) := q in
  match i with
  | 0%nat => (x / 3, x / 3 + y / 2) | 1%nat => (x / 2 + y / 3, y / 3)
  | 2%nat => (1 - 2 / 3 * x - y / 2, x / 3) | 3%nat => (1 - x / 2 - 2 / 3 * y, x / 2 + y / 3)
  | 4%nat => (x / 3 + y / 2, 1 - 2 / 3 * x - y / 2) | _ => (y / 3, 1 - x / 2 - 2 / 3 * y) end.
Ltac sons i := destruct i as [|[|[|[|[|[|i]]]]]]; [| | | | | |lia].
Lemma sonPoint_global T i q : (i < 6)%nat -> sonPointIs T i q (sonPoint i q).
Proof.
  intro H. destruct q as (x, y). unfold sonPointIs, globalPoint. apply vec_eq; sons i; cbn [sonTri sonPoint midpointOf centreOf vadd vsub vscale vx vy vz c0 c1 c2 fst snd]; field.
Qed.
Lemma combination a b A B : cross A B <> vzero -> vadd (vscale a A) (vscale b B) = vzero -> a = 0 /\ b = 0.
Proof.
  intros N E. destruct A as [a1 a2 a3], B as [b1 b2 b3]. unfold vadd, vscale, vzero in E. cbn in E. injection E as E1 E2 E3.
  assert (X : forall k, k * (a2 * b3 - a3 * b2) = 0 -> k * (a3 * b1 - a1 * b3) = 0 -> k * (a1 * b2 - a2 * b1) = 0 -> k = 0).
  { intros k H1 H2 H3. destruct (Req_dec k 0) as [|K]; [assumption|]. exfalso. apply N. unfold cross, vzero. cbn.
    f_equal; [apply Rmult_integral in H1|apply Rmult_integral in H2|apply Rmult_integral in H3]; tauto. }
  split; apply X.
  - replace (a * (a2 * b3 - a3 * b2)) with ((a * a2 + b * b2) * b3 - (a * a3 + b * b3) * b2) by ring. rewrite E2, E3. ring.
  - replace (a * (a3 * b1 - a1 * b3)) with ((a * a3 + b * b3) * b1 - (a * a1 + b * b1) * b3) by ring. rewrite E1, E3. ring.
  - replace (a * (a1 * b2 - a2 * b1)) with ((a * a1 + b * b1) * b2 - (a * a2 + b * b2) * b1) by ring. rewrite E1, E2. ring.
  - replace (b * (a2 * b3 - a3 * b2)) with (a2 * (a * a3 + b * b3) - a3 * (a * a2 + b * b2)) by ring. rewrite E2, E3. ring.
  - replace (b * (a3 * b1 - a1 * b3)) with (a3 * (a * a1 + b * b1) - a1 * (a * a3 + b * b3)) by ring. rewrite E1, E3. ring.
  - replace (b * (a1 * b2 - a2 * b1)) with (a1 * (a * a2 + b * b2) - a2 * (a * a1 + b * b1)) by ring. rewrite E1, E2. ring.
Qed.
Lemma globalPoint_inj T q q' : proper T -> globalPoint T q = globalPoint T q' -> q = q'.
Proof.
  intros P E. destruct q as (x, y), q' as (x', y').
  destruct (@combination (x - x') (y - y') (vsub (c1 T) (c0 T)) (vsub (c2 T) (c0 T)) P) as (A & B).
  - unfold globalPoint in E. cbn [fst snd] in E. unfold vadd, vscale, vsub, vzero in *. cbn in *. injection E as E1 E2 E3. f_equal; lra.
  - f_equal; lra.
Qed.
Lemma sonPoint_unique T i q q' : proper T -> (i < 6)%nat -> sonPointIs T i q q' -> q' = sonPoint i q.
Proof. intros P I H. apply (globalPoint_inj P). rewrite <- H. now apply sonPoint_global. Qed.
Lemma sonPoint_reference i q : (i < 6)%nat -> inReference q -> inReference (sonPoint i q).
Proof. intros I (A & B & C). destruct q as (x, y). unfold inReference in *. cbn [fst snd] in *. sons i; cbn [sonPoint fst snd]; lra. Qed.
Lemma sons_cover q' : inReference q' -> exists i q, (i < 6)%nat /\ inReference q /\ sonPoint i q = q'.
Proof.
  intros (A & B & C). destruct q' as (x, y). cbn [fst snd] in *. set (z := 1 - x - y).
  assert (K : forall i qx qy, (i < 6)%nat -> 0 <= qx -> 0 <= qy -> qx + qy <= 1 -> sonPoint i (qx, qy) = (x, y) ->
     exists i q, (i < 6)%nat /\ inReference q /\ sonPoint i q = (x, y)).
  { intros i qx qy H1 H2 H3 H4 H5. exists i, (qx, qy). repeat split; auto. }
  unfold z in *. destruct (Rle_lt_dec x y) as [XY|XY], (Rle_lt_dec (1 - x - y) x) as [ZX|ZX], (Rle_lt_dec (1 - x - y) y) as [ZY|ZY]; try lra.
  - apply (K 4%nat (3 * (1 - x - y)) (2 * (x - (1 - x - y)))); try lia; try lra. cbn. f_equal; field.
  - apply (K 5%nat (2 * (1 - x - y - x)) (3 * x)); try lia; try lra. cbn. f_equal; field.
  - apply (K 0%nat (3 * x) (2 * (y - x))); try lia; try lra. cbn. f_equal; field.
  - apply (K 3%nat (2 * (y - (1 - x - y))) (3 * (1 - x - y))); try lia; try lra. cbn. f_equal; field.
  - apply (K 2%nat (3 * y) (2 * (1 - x - y - y))); try lia; try lra. cbn. f_equal; field.
  - apply (K 1%nat (2 * (x - y)) (3 * y)); try lia; try lra. cbn. f_equal; field.
Qed.

(** ---- the order of the local dofs on a son ---- *)
Definition turn A (i : nat) (l : list A) : list A :=
  match l with
  | [a; b; c] => match i with 0%nat | 1%nat => [a; b; c] | 2%nat | 3%nat => [b; c; a] | _ => [c; a; b] end
  | _ => l end.
Lemma scatter_turn i a b c : (i < 6)%nat -> scatter i [a; b; c] = Some (turn i [a; b; c]).
Proof. intro H. sons i; reflexivity. Qed.
Lemma sum3s (val : nat -> R) cs a b c : nth_error cs 0 = Some a -> nth_error cs 1 = Some b -> nth_error cs 2 = Some c ->
  sumScalar val cs 3 = Some (val 0%nat * a + val 1%nat * b + val 2%nat * c).
Proof. intros A B C. unfold sumScalar. cbn [seq fold_left obind]. rewrite A. cbn [obind]. rewrite B. cbn [obind]. rewrite C. cbn [obind]. f_equal. ring. Qed.
Lemma linear_turn i q (x0 x1 x2 : R) : (i < 6)%nat ->
  match turn i [x0; x1; x2] with
  | [y0; y1; y2] => baryLinear (Nat.even i) 0 q * y0 + baryLinear (Nat.even i) 1 q * y1 + baryLinear (Nat.even i) 2 q * y2 =
      p1Function 0 (sonPoint i q) * x0 + p1Function 1 (sonPoint i q) * x1 + p1Function 2 (sonPoint i q) * x2
  | _ => False end.
Proof. intro H. destruct q as (x, y). sons i; cbn; field. Qed.
Lemma scalar_transfer (m : dofmap Rsr) b u j i d0 d1 d2 e q :
  (i < 6)%nat -> consistent m -> consistent (b_map b) -> length u = globalDofCount m -> globalDofCount (b_map b) = globalDofCount m ->
  zget (dm_l2g m) (s_index e) = Some [d0; d1; d2] -> zget (dm_w m) (s_index e) = Some (repeat 1 3) ->
  zget (dm_l2g (b_map b)) j = Some (turn i [d0; d1; d2]) -> zget (dm_w (b_map b)) j = Some (repeat 1 3) ->
  zget (b_type b) j = Some (Nat.even i) ->
  exists x, evaluateP1 m u e (sonPoint i q) = Some x /\ evalBaryLinear b u j q = Some x.
Proof.
  intros Hi C CB L GB DM WM DB WB TB.
  assert (V : forall (mm : dofmap Rsr) jj a0 a1 a2, consistent mm -> length u = globalDofCount mm -> zget (dm_l2g mm) jj = Some [a0; a1; a2] -> zget (dm_w mm) jj = Some (repeat 1 3) ->
     exists cs, localCoefficients mm u jj = Some cs /\ nth_error cs 0 = Some (coefficient u a0) /\ nth_error cs 1 = Some (coefficient u a1) /\ nth_error cs 2 = Some (coefficient u a2)).
  { clear. intros mm jj a0 a1 a2 C L D W. destruct (@local_coefficients mm u jj C L) as (cs & E & P).
    { exists 1. exists (repeat 1 3). split; [exact W|reflexivity]. }
    exists cs. split; [exact E|]. assert (Wk : forall k, (k < 3)%nat -> dofWeight mm jj k 1).
    { intros k Hk. exists (repeat 1 3). split; [exact W|]. destruct k as [|[|[|]]]; [reflexivity..|lia]. }
    rewrite (P 0%nat a0 1), (P 1%nat a1 1), (P 2%nat a2 1); auto; try (exists [a0; a1; a2]; split; [exact D|reflexivity]).
    rewrite !Rmult_1_r. auto. }
  destruct (V m (s_index e) d0 d1 d2 C L DM WM) as (cs & E & A0 & A1 & A2).
  assert (LT := @linear_turn i q (coefficient u d0) (coefficient u d1) (coefficient u d2) Hi).
  unfold evaluateP1, evalBaryLinear. rewrite E, TB. cbn [obind]. rewrite (@sum3s _ cs _ _ _ A0 A1 A2).
  eexists. split; [reflexivity|].
  assert (exists a0 a1 a2, turn i [d0; d1; d2] = [a0; a1; a2] /\ turn i [coefficient u d0; coefficient u d1; coefficient u d2] = [coefficient u a0; coefficient u a1; coefficient u a2]) as (a0 & a1 & a2 & T1 & T2).
  { sons i; cbn [turn]; eauto. }
  rewrite T1 in DB. rewrite T2 in LT.
  destruct (V (b_map b) j a0 a1 a2 CB (eq_trans L (eq_sym GB)) DB WB) as (cs' & E' & B0 & B1 & B2).
  rewrite E'. cbn [obind]. rewrite (@sum3s _ cs' _ _ _ B0 B1 B2). now rewrite LT.
Qed.

(** ---- a bary space from a row function on (element, son) pairs ---- *)
Lemma sonPairs_length g : length (sonPairs g) = (6 * length (g_elts g))%nat.
Proof. unfold sonPairs. induction (g_elts g) as [|e es IH]; [reflexivity|]. cbn [flat_map]. rewrite app_length, IH, map_length, seq_length. cbn [length]. lia. Qed.
Lemma in_sonPairs g e i : In (e, i) (sonPairs g) <-> In e (g_elts g) /\ (i < 6)%nat.
Proof.
  unfold sonPairs. rewrite in_flat_map. split.
  - intros (x & I & J). apply in_map_iff in J as (k & Q & J). injection Q as -> ->. apply in_seq in J. split; [assumption|lia].
  - intros (I & J). exists e. split; [exact I|]. apply in_map. apply in_seq. lia.
Qed.
Lemma NoDup_indices g : gridOk g -> NoDup (g_elts g).
Proof. intros (ND & _). eapply NoDup_map_inv; eauto. Qed.
Lemma sonPairs_NoDup g : gridOk g -> NoDup (sonPairs g).
Proof.
  intros G. unfold sonPairs. apply NoDup_flat_map.
  - now apply NoDup_indices.
  - intros e _. apply FinFun.Injective_map_NoDup; [intros a b Q; now injection Q|apply seq_NoDup].
  - intros a b x _ _ I J. apply in_map_iff in I as (k & <- & _). apply in_map_iff in J as (k' & Q & _). now injection Q.
Qed.
Lemma NoDup_map_on A B (f : A -> B) l : NoDup l -> (forall x y, In x l -> In y l -> f x = f y -> x = y) -> NoDup (map f l).
Proof.
  induction 1 as [|a l NI ND IH]; intro H; cbn; constructor.
  - intro I. apply in_map_iff in I as (b & E & I). assert (b = a) by (apply H; [now right|now left|exact E]). now subst.
  - apply IH. intros; apply H; auto; now right.
Qed.
Section Build.
Variables (g : sgrid) (son : Z -> nat -> Z) (count : nat).
Hypotheses (G : gridOk g) (SN : sonNumbering (g_n0 g) son).
Variables (A : Type) (xs : list A) (pe : A -> selt * nat) (mk : A -> row).
Hypotheses (PX : map pe xs = sonPairs g)
  (OK : forall x, In x xs -> rowOk count (mk x) /\ r_index (mk x) = son (s_index (fst (pe x))) (snd (pe x))).
Lemma build (f : A -> option row) : (forall x, In x xs -> f x = Some (mk x)) ->
  exists b, assignSons (6 * length (g_elts g)) count (map f xs) = Some b /\
    globalDofCount (b_map b) = count /\ consistent (b_map b) /\ flatEnumerates (b_map b) /\
    forall x, In x xs -> let j := son (s_index (fst (pe x))) (snd (pe x)) in
       zget (dm_l2g (b_map b)) j = Some (r_dofs (mk x)) /\ zget (dm_w (b_map b)) j = Some (r_w (mk x) : list Rsr) /\ zget (b_type b) j = Some (r_type (mk x)).
Proof.
  intros F.
  assert (NX : NoDup xs) by (eapply NoDup_map_inv; rewrite PX; now apply sonPairs_NoDup).
  assert (IX : forall x, In x xs -> In (fst (pe x)) (g_elts g) /\ (snd (pe x) < 6)%nat).
  { intros x I. apply in_sonPairs. rewrite <- PX. rewrite <- surjective_pairing. now apply in_map. }
  assert (EI : forall x y, In x xs -> In y xs -> pe x = pe y -> x = y).
  { assert (N : NoDup (map pe xs)) by (rewrite PX; now apply sonPairs_NoDup). clear -N. induction xs as [|a l IH]; intros x y I J E; [destruct I|].
    cbn in N. inversion N; subst. destruct I as [<-|I], J as [<-|J]; auto; exfalso; apply H1; [rewrite E|rewrite <- E]; now apply in_map. }
  pose proof G as (_ & RI & _). destruct SN as (S1 & S2).
  destruct (@assignSons_spec (6 * length (g_elts g)) count (map mk xs)) as (b & E & B1 & B2 & B3 & B4 & _).
  - rewrite map_length, <- sonPairs_length, <- PX, map_length. reflexivity.
  - intros r I. apply in_map_iff in I as (x & <- & I). now apply OK.
  - rewrite map_map. apply NoDup_map_on; [exact NX|]. intros x y I J Q. apply EI; auto.
    destruct (OK I) as (_ & Q1). destruct (OK J) as (_ & Q2). rewrite Q1, Q2 in Q. destruct (IX x I) as (X1 & X2). destruct (IX y J) as (Y1 & Y2).
    apply S2 in Q; auto. destruct Q as (Q & Q'). destruct (pe x) as [ex ix], (pe y) as [ey iy]. cbn [fst snd] in *. f_equal; [|exact Q'].
    eapply indices_inj; eauto. now apply gridOk_indices.
  - intros r I. apply in_map_iff in I as (x & <- & I). destruct (OK I) as (_ & ->). destruct (IX x I) as (X1 & X2).
    specialize (S1 (s_index (fst (pe x))) (snd (pe x)) (RI _ X1) X2). unfold g_n0 in S1. lia.
  - exists b. rewrite map_map in E. rewrite (map_ext_in f (fun x => Some (mk x))) by exact F. split; [exact E|]. split; [exact B1|]. split; [exact B2|]. split; [exact B3|].
    intros x I. destruct (OK I) as (_ & <-). apply B4. now apply in_map.
Qed.
End Build.
