(** Proofs for C176-C178. *)
From Coq Require Import List Arith ZArith Bool Reals Lia Lra Permutation.
Import ListNotations.
From Verif Require Import Base BoxModel GridModel GridSpec GridProofs GridGeomModel EdaModel EdaSpec.
Set Implicit Arguments.
Unset Strict Implicit.

Lemma memory_length A (a : array A) : length (memory a) = rows a * cols a.
Proof.
  unfold memory. assert (G : forall l, length (flat_map (fun j => map (fun i => at_ a i j) (seq 0 (rows a))) l) = rows a * length l).
  { induction l as [|j l IH]; cbn [flat_map length]; [lia|]. rewrite app_length, map_length, seq_length, IH. lia. }
  now rewrite G, seq_length.
Qed.
Lemma memory_nth A (a : array A) i j : i < rows a -> j < cols a -> nth_error (memory a) (rows a * j + i) = Some (at_ a i j).
Proof.
  intros I J. unfold memory. rewrite (@nth_flat_map_const _ _ _ (rows a)) by (try lia; intros; now rewrite map_length, seq_length).
  replace (rows a * j + i) with (i + j * rows a) by lia. rewrite Nat.div_add, Nat.mod_add by lia.
  rewrite Nat.div_small, Nat.mod_small by lia. cbn [Nat.add]. rewrite nth_error_seq. apply Nat.ltb_lt in J as J'. rewrite J'. cbn [Nat.add].
  rewrite nth_error_map, nth_error_seq. apply Nat.ltb_lt in I as I'. now rewrite I'.
Qed.
Lemma mapColumn_three A (a : array A) j : rows a = 3 -> j < cols a -> mapColumn (memory a) j = Some (column a j).
Proof.
  intros R J. unfold mapColumn. pose proof (@memory_nth _ a 0 j) as H0. pose proof (@memory_nth _ a 1 j) as H1. pose proof (@memory_nth _ a 2 j) as H2.
  rewrite R in H0, H1, H2. rewrite Nat.add_0_r in H0. rewrite H0, H1, H2 by lia. reflexivity.
Qed.
Lemma insertVertices_ok D mem (f : nat -> D * D * D) js : (forall j, In j js -> mapColumn mem j = Some (f j)) -> insertVertices mem js = Some (map f js).
Proof.
  induction js as [|j r IH]; cbn; intros H; [reflexivity|]. rewrite (H j) by now left. rewrite IH by (intros; apply H; now right). reflexivity.
Qed.
Definition natElt (f : Z * Z * Z) : elt := let '(a, b, c) := f in (Z.to_nat a, Z.to_nat b, Z.to_nat c).
Definition okElt nv (f : Z * Z * Z) : bool := let '(a, b, c) := f in negb (badCorner nv a || badCorner nv b || badCorner nv c).
Lemma insertElements_eq nv mem (f : nat -> Z * Z * Z) js : (forall j, In j js -> mapColumn mem j = Some (f j)) ->
  insertElements nv mem js = if forallb (fun j => okElt nv (f j)) js then Returns (map (fun j => natElt (f j)) js) else Raises.
Proof.
  induction js as [|j r IH]; cbn; intros H; [reflexivity|]. rewrite (H j) by now left. rewrite IH by (intros; apply H; now right).
  destruct (f j) as [[a b] c]. cbn [okElt natElt]. destruct (_ || _); cbn [negb andb]; [reflexivity|]. destruct (forallb _ _); reflexivity.
Qed.
Lemma badCorner_spec nv c : badCorner nv c = false <-> (0 <= c < Z.of_nat nv)%Z.
Proof. unfold badCorner. rewrite orb_false_iff, Z.ltb_ge, Z.leb_gt. lia. Qed.
Lemma okElt_spec nv a b c : okElt nv (a, b, c) = true <-> (0 <= a < Z.of_nat nv /\ 0 <= b < Z.of_nat nv /\ 0 <= c < Z.of_nat nv)%Z.
Proof. cbn. rewrite negb_true_iff, !orb_false_iff, !badCorner_spec. tauto. Qed.

(** the grid that is made *)
Definition made D (V : array D) (E : array Z) (dom : list nat) : grid (D * D * D) :=
  {| g_vertices := map (column V) (seq 0 (cols V)); g_elements := map (fun j => natElt (column E j)) (seq 0 (cols E));
     g_domains := if length dom =? 0 then repeat 0 (cols E) else dom |}.
Lemma inRange_forallb E nv : cornersInRange E nv <-> forallb (fun j => okElt nv (column E j)) (seq 0 (cols E)) = true.
Proof.
  rewrite forallb_forall. unfold column. split.
  - intros H j J. apply in_seq in J. apply okElt_spec. repeat split; apply H; lia.
  - intros H i j I J. specialize (H j). rewrite in_seq in H. specialize (H ltac:(lia)). apply okElt_spec in H.
    destruct i as [|[|[|]]]; try lia; tauto.
Qed.
Lemma create_eq D (V : array D) (E : array Z) dom : rows V = 3 -> rows E = 3 ->
  gridFromElementData V E dom = if negb (length dom =? 0) && negb (length dom =? cols E) then Raises
    else if forallb (fun j => okElt (cols V) (column E j)) (seq 0 (cols E)) then Returns (made V E dom) else Raises.
Proof.
  intros RV RE. unfold gridFromElementData, createGridFromConnectivityArrays. destruct (_ && _); [reflexivity|].
  rewrite (@insertVertices_ok _ _ (column V)) by (intros j J; apply in_seq in J; apply mapColumn_three; lia).
  rewrite (@insertElements_eq _ _ (column E)) by (intros j J; apply in_seq in J; apply mapColumn_three; lia).
  destruct (forallb _ _); reflexivity.
Qed.

Lemma storeLoop_ok A (f : nat -> option A) order : NoDup (map fst order) -> forall out, (forall p, In p order -> fst p < length out) ->
  exists r, storeLoop f order out = Some r /\ length r = length out /\
    (forall i j, In (i, j) order -> nth_error r i = Some (f j)) /\
    (forall k, ~ In k (map fst order) -> nth_error r k = nth_error out k).
Proof.
  induction order as [|[i j] t IH]; cbn; intros N out B. { exists out. repeat split; auto; easy. }
  inversion_clear N as [|? ? N1 N2]. destruct (@upd_Some _ out i (f j)) as (o & U); [apply (B (i, j)); now left|].
  rewrite U. pose proof (upd_length _ _ _ U) as L. destruct (IH N2 o) as (r & E & L' & P & Q); [intros p I; rewrite L; apply B; now right|].
  exists r. split; [exact E|]. split; [lia|]. split.
  - intros i' j' [[= <- <-]|I]; [|now apply P]. rewrite Q by exact N1. rewrite (upd_nth_error _ _ _ _ U), Nat.eqb_refl. reflexivity.
  - intros k H. rewrite Q by tauto. rewrite (upd_nth_error _ _ _ _ U). destruct (Nat.eqb_spec k i); [|reflexivity]. subst. tauto.
Qed.
Lemma numbers_facts order n : numbers order n -> length order = n /\ NoDup (map fst order) /\ NoDup (map snd order) /\
  (forall i j, In (i, j) order -> i < n /\ j < n) /\ (forall j, j < n -> exists i, In (i, j) order) /\ (forall i, i < n -> exists j, In (i, j) order).
Proof.
  intros [F S]. assert (L : length order = n) by (apply Permutation_length in F; now rewrite map_length, seq_length in F).
  split; [exact L|]. split; [apply (Permutation_NoDup (Permutation_sym F)), seq_NoDup|]. split; [apply (Permutation_NoDup (Permutation_sym S)), seq_NoDup|].
  split; [|split].
  - intros i j I. split; [assert (H : In i (map fst order)) by (apply in_map_iff; exists (i, j); auto)|assert (H : In j (map snd order)) by (apply in_map_iff; exists (i, j); auto)];
    [apply (Permutation_in _ F) in H|apply (Permutation_in _ S) in H]; apply in_seq in H; lia.
  - intros j J. assert (H : In j (map snd order)) by (apply (Permutation_in _ (Permutation_sym S)), in_seq; lia). apply in_map_iff in H as ([i j'] & <- & I). eauto.
  - intros i J. assert (H : In i (map fst order)) by (apply (Permutation_in _ (Permutation_sym F)), in_seq; lia). apply in_map_iff in H as ([i' j] & <- & I). eauto.
Qed.
Lemma vertexIndex_ok n V i j : numbers (vertexOrder n) V -> In (i, j) (vertexOrder n) -> vertexIndex n j = Some i.
Proof.
  intros N I. destruct (numbers_facts N) as (_ & _ & ND & _). unfold vertexIndex. clear N. induction (vertexOrder n) as [|[a b] t IH]; [easy|]. cbn in ND. inversion_clear ND as [|? ? N1 N2].
  cbn. destruct (Nat.eqb_spec b j) as [->|NE].
  - destruct I as [[= <-]|I]; [reflexivity|]. exfalso. apply N1. apply in_map_iff. exists (i, j). auto.
  - destruct I as [[= <- <-]|I]; [easy|]. now apply IH.
Qed.
Lemma rawVertices_ok P (g : grid P) n : numbers (vertexOrder n) (length (g_vertices g)) ->
  exists vs, rawVertices g n = Some vs /\ length vs = length (g_vertices g) /\
    forall i j, In (i, j) (vertexOrder n) -> nth_error vs i = Some (nth_error (g_vertices g) j).
Proof.
  intros N. destruct (numbers_facts N) as (L & N1 & _ & B & _). unfold rawVertices.
  destruct (@storeLoop_ok _ (nth_error (g_vertices g)) (vertexOrder n) N1 (repeat None (length (vertexOrder n)))) as (r & E & L' & P' & _).
  - intros [i j] I. rewrite repeat_length. apply B in I. cbn. lia.
  - exists r. rewrite repeat_length in L'. split; [exact E|]. split; [lia|exact P'].
Qed.
Lemma rawElements_ok P (g : grid P) n : numbers (elementOrder n) (length (g_elements g)) ->
  exists es, rawElements g n = Some es /\ length es = length (g_elements g) /\
    forall i j, In (i, j) (elementOrder n) -> nth_error es i = Some (corners g n j).
Proof.
  intros N. destruct (numbers_facts N) as (L & N1 & _ & B & _). unfold rawElements.
  destruct (@storeLoop_ok _ (corners g n) (elementOrder n) N1 (repeat None (length (elementOrder n)))) as (r & E & L' & P' & _).
  - intros [i j] I. rewrite repeat_length. apply B in I. cbn. lia.
  - exists r. rewrite repeat_length in L'. split; [exact E|]. split; [lia|exact P'].
Qed.
Lemma rawDomains_ok P (g : grid P) n : numbers (elementOrder n) (length (g_domains g)) ->
  exists ds, rawDomains g n = Some ds /\ length ds = length (g_domains g) /\
    forall i j, In (i, j) (elementOrder n) -> nth_error ds i = Some (nth_error (g_domains g) j).
Proof.
  intros N. destruct (numbers_facts N) as (L & N1 & _ & B & _). unfold rawDomains.
  destruct (permute_ok (g_domains g) (elementOrder n) (repeat 0 (length (g_domains g)))) as (d & E & Ld & Pd & _); [intros i j I; rewrite repeat_length; now apply B|exact N1|].
  unfold permuteInsertionDomainIndices. rewrite E.
  destruct (@storeLoop_ok _ (fun k => nth_error d k) (map (fun p => (fst p, fst p)) (elementOrder n))) with (out := repeat (@None nat) (length (elementOrder n))) as (r & E2 & L' & P' & _).
  - now rewrite map_map.
  - intros p I. apply in_map_iff in I as ([i j] & <- & I). rewrite repeat_length. apply B in I. cbn. lia.
  - exists r. rewrite repeat_length in L'. split; [exact E2|]. split; [lia|]. intros i j I.
    rewrite (P' i i) by (apply in_map_iff; exists (i, j); auto). f_equal. now apply Pd.
Qed.
Lemma corners_ok P (g : grid P) n j a b c a' b' c' V : numbers (vertexOrder n) V -> nth_error (g_elements g) j = Some (a, b, c) ->
  In (a', a) (vertexOrder n) -> In (b', b) (vertexOrder n) -> In (c', c) (vertexOrder n) -> corners g n j = Some (a', b', c').
Proof. intros N E A B C. unfold corners. rewrite E. now rewrite (vertexIndex_ok N A), (vertexIndex_ok N B), (vertexIndex_ok N C). Qed.

Lemma cells_miAll nx ny : 0 < nx -> Permutation (miAll nx ny) (cells nx ny).
Proof.
  intros H. apply NoDup_Permutation_bis.
  - apply NoDup_nth_error. intros i j I E. rewrite miAll_length in I.
    assert (J : j < nx * ny). { rewrite <- miAll_length. apply nth_error_Some. rewrite <- E. apply nth_error_Some. now rewrite miAll_length. }
    rewrite !miAll_nth in E by assumption. injection E as M D.
    rewrite (Nat.div_mod i nx), (Nat.div_mod j nx) by lia. now rewrite M, D.
  - unfold cells. rewrite prod_length, !seq_length, miAll_length. lia.
  - intros [x y] I. apply In_nth_error in I as (k & E). assert (K : k < nx * ny) by (rewrite <- miAll_length; apply nth_error_Some; congruence).
    rewrite miAll_nth in E by assumption. injection E as <- <-. apply in_prod; apply in_seq.
    + pose proof (Nat.mod_upper_bound k nx ltac:(lia)). lia.
    + pose proof (Nat.div_lt_upper_bound k nx ny ltac:(lia) K). lia.
Qed.

(** columns re-indexed by a numbering form a permutation of the columns *)
Lemma numbers_perm A (l l' : list A) order : numbers order (length l) -> length l' = length l ->
  (forall i j, In (i, j) order -> nth_error l' i = nth_error l j) -> Permutation l' l.
Proof.
  intros [F S] L H. destruct l as [|d l0]; [destruct l'; [constructor|discriminate]|]. set (l := d :: l0) in *. clearbody l.
  assert (M : forall k : list A, k = map (fun i => nth i k d) (seq 0 (length k))).
  { induction k as [|a k IH]; [reflexivity|]. cbn [length seq map nth]. f_equal. rewrite <- seq_shift, map_map. exact IH. }
  rewrite (M l), (M l'), L. rewrite <- (Permutation_map (fun i => nth i l' d) F), <- (Permutation_map (fun i => nth i l d) S), !map_map.
  apply Permutation_refl'. apply map_ext_in. intros [i j] I. cbn [fst snd]. apply H in I. destruct (nth_error l j) eqn:E.
  - now rewrite (nth_error_nth _ _ d E), (nth_error_nth _ _ d I).
  - apply nth_error_None in E. apply nth_error_None in I. now rewrite !nth_overflow by assumption.
Qed.
Lemma allSome_map A (l : list A) : allSome (map Some l) = Some l.
Proof. unfold allSome. induction l as [|a l IH]; cbn; [reflexivity|]. now rewrite IH. Qed.
Lemma all_some A (l : list (option A)) : (forall i, i < length l -> exists a, nth_error l i = Some (Some a)) -> exists r, l = map Some r.
Proof.
  induction l as [|o l IH]; intros H; [now exists []|]. destruct IH as (r & ->). { intros i I. apply (H (S i)). cbn. lia. }
  destruct (H 0) as (a & E); [cbn; lia|]. cbn in E. injection E as ->. now exists (a :: r).
Qed.

Definition moved (ax : axis) (offset : R) (p : point) : point :=
  match ax with XY => (px p + 0, py p + 0, pz p + offset) | XZ => (px p + 0, pz p + offset, py p + 0) | _ => (pz p + offset, px p + 0, py p + 0) end%R.
Definition permOf (ax : axis) := match ax with XY => [0; 1; 2] | XZ => [0; 2; 1] | _ => [2; 0; 1] end.
Definition offOf (ax : axis) (o : R) := match ax with XY => [0; 0; o] | XZ => [0; o; 0] | _ => [o; 0; 0] end%R.
Lemma map_seq_nth A B (l : list A) (f : nat -> B) (g : A -> B) : (forall j a, nth_error l j = Some a -> f j = g a) -> map f (seq 0 (length l)) = map g l.
Proof.
  intros H. apply nth_error_ext. intros k. rewrite !nth_error_map, nth_error_seq. destruct (Nat.ltb_spec k (length l)) as [L|L].
  - destruct (nth_error l k) eqn:E; [|apply nth_error_None in E; lia]. cbn. f_equal. now apply H.
  - replace (nth_error l k) with (@None A) by (symmetry; now apply nth_error_None). reflexivity.
Qed.
Lemma moved_columns vs ax o : ax <> Other ->
  map (column (rearranged (columns vs 3 0%R coordinate) (permOf ax) (offOf ax o))) (seq 0 (length vs)) = map (moved ax o) vs.
Proof. intros H. apply map_seq_nth. intros j a E. destruct ax; [| | |easy]; unfold column; cbn [rearranged columns at_ permOf offOf nth]; rewrite E; reflexivity. Qed.
Lemma element_columns es : map (fun j => natElt (column (columns es 3 0%Z cornerOf) j)) (seq 0 (length es)) = es.
Proof.
  rewrite (@map_seq_nth _ _ _ _ (fun e => e)); [apply map_id|]. intros j [[a b] c] E. unfold column. cbn [columns at_]. rewrite E. cbn. now rewrite !Nat2Z.id.
Qed.

Section Structured.
  Variables (lx ly ux uy : R) (nx ny : nat) (ax : axis) (o : R).
  Hypotheses (HX : 0 < nx) (HY : 0 < ny) (HA : ax <> Other).
  Let pos := structuredPosition lx ly ux uy nx ny.
  Let V0 := map pos (structuredVertices nx ny).
  Let E0 := simplexElements nx ny.
  Let P := latticePoint ax o lx ly ux uy nx ny.

  Lemma moved_pos c : moved ax o (pos c) = P (fst c) (snd c).
  Proof.
    unfold moved, P, latticePoint, placed, pos, structuredPosition. rewrite !Nat.add_sub. unfold px, py, pz. cbn [fst snd].
    destruct ax; [| | |easy]; repeat apply (f_equal2 (@pair _ _)); unfold Rdiv; ring.
  Qed.
  Lemma vertex_nth x y : x <= nx -> y <= ny -> nth_error (map (moved ax o) V0) (x + y * (nx + 1)) = Some (P x y).
  Proof.
    intros X Y. unfold V0. rewrite map_map, nth_error_map. unfold structuredVertices. rewrite miAll_nth by nia.
    rewrite Nat.mod_add, Nat.div_add by lia. rewrite Nat.mod_small, Nat.div_small by lia. cbn [option_map]. now rewrite moved_pos.
  Qed.
  Lemma V0_length : length V0 = (nx + 1) * (ny + 1).
  Proof. unfold V0, structuredVertices. now rewrite map_length, miAll_length. Qed.
  Lemma V0_perm : Permutation (map (moved ax o) V0) (map (fun c => P (fst c) (snd c)) (cells (nx + 1) (ny + 1))).
  Proof.
    unfold V0. rewrite map_map, (map_ext _ _ moved_pos). apply Permutation_map, cells_miAll. lia.
  Qed.
  Lemma cell_in c : In c (miAll nx ny) -> fst c < nx /\ snd c < ny.
  Proof. intros I. apply (Permutation_in _ (cells_miAll ny HX)) in I. destruct c. apply in_prod_iff in I as [I J]. apply in_seq in I, J. cbn. lia. Qed.
  Lemma E0_triangles : map (triangleOf (map (moved ax o) V0)) E0 = map Some (flat_map (cellTriangles P) (miAll nx ny)).
  Proof.
    unfold E0, simplexElements. pose proof cell_in as H. induction (miAll nx ny) as [|c l IH]; [reflexivity|].
    cbn [flat_map]. rewrite !map_app. apply f_equal2; [|apply IH; intros; apply H; now right]. destruct (H c) as [X Y]; [now left|]. clear H IH. destruct c as [x y].
    cbn [fst snd] in *. unfold GridModel.cellTriangles, cellTriangles, unitOffsets. cbn [fst snd map].
    replace (x * 1 + y * (1 * (nx + 1))) with (x + y * (nx + 1)) by lia.
    replace (x + y * (nx + 1) + 1) with ((x + 1) + y * (nx + 1)) by lia.
    replace (x + 1 + y * (nx + 1) + 1 * (nx + 1)) with ((x + 1) + (y + 1) * (nx + 1)) by lia.
    replace (x + y * (nx + 1) + 1 * (nx + 1)) with (x + (y + 1) * (nx + 1)) by lia.
    replace (x + (y + 1) * (nx + 1) + 1) with ((x + 1) + (y + 1) * (nx + 1)) by lia.
    unfold triangleOf. rewrite !vertex_nth by lia. reflexivity.
  Qed.
  Lemma E0_bound j a b c : nth_error E0 j = Some (a, b, c) -> a < length V0 /\ b < length V0 /\ c < length V0.
  Proof.
    intros E. assert (T : nth_error (map (triangleOf (map (moved ax o) V0)) E0) j = Some (triangleOf (map (moved ax o) V0) (a, b, c))) by (apply (map_nth_error _ _ _ E)).
    rewrite E0_triangles in T. rewrite nth_error_map in T. destruct (nth_error (flat_map _ _) j) as [t|]; [|discriminate]. cbn in T. injection T as T.
    assert (B : forall k, k < length V0 \/ nth_error (map (moved ax o) V0) k = None).
    { intros k. destruct (Nat.lt_ge_cases k (length V0)); [now left|right]. apply nth_error_None. now rewrite map_length. }
    unfold triangleOf in T. destruct (B a) as [A | A]; [|rewrite A in T; discriminate].
    destruct (B b) as [B1 | B1]; [|rewrite B1 in T; destruct (nth_error (map (moved ax o) V0) a); discriminate].
    destruct (B c) as [C | C]; [|rewrite C in T; destruct (nth_error (map (moved ax o) V0) a), (nth_error (map (moved ax o) V0) b); discriminate]. auto.
  Qed.

  Variable n : numbering.
  Hypothesis N : validNumbering n ((nx + 1) * (ny + 1)) (2 * (nx * ny)).
  Lemma structured_ok : exists g, structuredGrid n [lx; ly] [ux; uy] [Z.of_nat nx; Z.of_nat ny] ax o = Returns g /\
    Permutation (g_vertices g) (map (moved ax o) V0) /\
    Permutation (map (triangleOf (g_vertices g)) (g_elements g)) (map (triangleOf (map (moved ax o) V0)) E0).
  Proof.
    destruct N as [NV NE]. unfold structuredGrid, structuredGridCore.
    replace (Z.of_nat nx <? 1)%Z with false by (symmetry; apply Z.ltb_ge; lia). replace (Z.of_nat ny <? 1)%Z with false by (symmetry; apply Z.ltb_ge; lia).
    cbn [orb]. rewrite !Nat2Z.id. fold pos V0 E0. set (g0 := {| g_vertices := V0; g_elements := E0; g_domains := repeat 0 (length E0) |}).
    pose proof V0_length as LV. assert (LE : length E0 = 2 * (nx * ny)) by apply simplex_length.
    destruct (@rawVertices_ok _ g0 n) as (vs0 & R1 & L1 & P1); [cbn; now rewrite LV|].
    destruct (@rawElements_ok _ g0 n) as (es0 & R2 & L2 & P2); [cbn; now rewrite LE|]. cbn [g0 g_vertices g_elements] in L1, L2, P1.
    destruct (numbers_facts NV) as (_ & _ & _ & BV & SV & TV). destruct (numbers_facts NE) as (_ & _ & _ & BE & SE & TE).
    destruct (@all_some _ vs0) as (vs & ->).
    { intros i I. destruct (TV i) as (j & J); [lia|]. rewrite (P1 _ _ J). destruct (BV _ _ J). destruct (nth_error V0 j) eqn:X; [eauto|]. apply nth_error_None in X. lia. }
    assert (PV : forall i j, In (i, j) (vertexOrder n) -> nth_error vs i = nth_error V0 j).
    { intros i j I. apply P1 in I. rewrite nth_error_map in I. destruct (nth_error vs i); cbn in I; congruence. }
    rewrite map_length in L1.
    assert (PE : forall i j, In (i, j) (elementOrder n) -> exists a b c a' b' c', nth_error E0 j = Some (a, b, c) /\ nth_error es0 i = Some (Some (a', b', c')) /\
              In (a', a) (vertexOrder n) /\ In (b', b) (vertexOrder n) /\ In (c', c) (vertexOrder n)).
    { intros i j I. destruct (BE _ _ I) as [_ J]. destruct (nth_error E0 j) as [[[a b] c]|] eqn:X; [|apply nth_error_None in X; lia].
      destruct (E0_bound X) as (A & B & C). destruct (SV a) as (a' & A'); [lia|]. destruct (SV b) as (b' & B'); [lia|]. destruct (SV c) as (c' & C'); [lia|].
      exists a, b, c, a', b', c'. split; [reflexivity|]. split; [|auto]. rewrite (P2 _ _ I). f_equal. apply (@corners_ok _ g0 n j a b c a' b' c' _ NV); auto. }
    destruct (@all_some _ es0) as (es & ->).
    { intros i I. destruct (TE i) as (j & J); [lia|]. destruct (PE _ _ J) as (a & b & c & a' & b' & c' & _ & X & _). eauto. }
    rewrite map_length in L2.
    assert (PE' : forall i j, In (i, j) (elementOrder n) -> exists a b c a' b' c', nth_error E0 j = Some (a, b, c) /\ nth_error es i = Some (a', b', c') /\
              In (a', a) (vertexOrder n) /\ In (b', b) (vertexOrder n) /\ In (c', c) (vertexOrder n)).
    { intros i j I. destruct (PE _ _ I) as (a & b & c & a' & b' & c' & X & Y & Z). exists a, b, c, a', b', c'. split; [exact X|]. split; [|exact Z].
      rewrite nth_error_map in Y. destruct (nth_error es i); cbn in Y; congruence. }
    rewrite R1, R2. cbn [option_map]. rewrite !allSome_map.
    assert (Q : gridFromElementData (rearranged (columns vs 3 0%R coordinate) (permOf ax) (offOf ax o)) (columns es 3 0%Z cornerOf) [] =
              Returns (made (rearranged (columns vs 3 0%R coordinate) (permOf ax) (offOf ax o)) (columns es 3 0%Z cornerOf) [])).
    { rewrite create_eq; [|destruct ax; reflexivity|reflexivity]. cbn [length Nat.eqb negb andb].
      replace (forallb _ _) with true; [reflexivity|]. symmetry. apply forallb_forall. intros i I. apply in_seq in I. cbn [cols columns rearranged] in *.
      destruct (TE i) as (j & J); [lia|]. destruct (PE' _ _ J) as (a & b & c & a' & b' & c' & _ & X & A & B & C). unfold column. cbn [at_ columns]. rewrite X. cbn [cornerOf].
      apply okElt_spec. destruct (BV _ _ A), (BV _ _ B), (BV _ _ C). lia. }
    pose (G := (made (rearranged (columns vs 3 0%R coordinate) (permOf ax) (offOf ax o)) (columns es 3 0%Z cornerOf) []) : grid point).
    assert (GV : g_vertices G = map (moved ax o) vs) by (apply moved_columns, HA).
    assert (GE : g_elements G = es) by apply element_columns.
    exists G. split; [|rewrite GV, GE; split].
    - destruct ax; [exact Q|exact Q|exact Q|easy].
    - apply Permutation_map. apply (@numbers_perm _ V0 vs (vertexOrder n)); [now rewrite LV|lia|exact PV].
    - apply (@numbers_perm _ _ _ (elementOrder n)); [rewrite map_length; change (numbers (elementOrder n) (@length elt E0)); now rewrite LE|rewrite !map_length; change (@length elt es = @length elt E0); lia|].
      intros i j I. destruct (PE' _ _ I) as (a & b & c & a' & b' & c' & X & Y & A & B & C). rewrite (map_nth_error _ _ _ X), (map_nth_error _ _ _ Y). cbn [triangleOf].
      rewrite !nth_error_map. rewrite (PV _ _ A), (PV _ _ B), (PV _ _ C). reflexivity.
  Qed.
End Structured.
