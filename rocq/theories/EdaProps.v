(** C176-C178: element data of grids, and structured grids of the coordinate planes. *)
From Coq Require Import List Arith ZArith Bool Reals Lia Lra Permutation.
Import ListNotations.
From Verif Require Import Base BoxModel FmmGeomModel GridModel GridSpec GridProofs GridGeomModel GridGeomProofs EdaModel EdaSpec EdaProofs.
Set Implicit Arguments.
Unset Strict Implicit.

(** C176. Arrays with three rows make a grid exactly when every corner is the number of a vertex and the domain indices are absent or
    one for each element; whatever numbering Dune chooses, the element data of the grid's leaf view then are the given ones, each
    vertex and element moved to its index. *)
Theorem C176_element_data_round_trip : forall D (V : array D) (E : array Z) domains, rows V = 3 -> rows E = 3 ->
  (cornersInRange E (cols V) -> domainsMatch domains E -> exists g, gridFromElementData V E domains = Returns g /\
    length (g_vertices g) = cols V /\ length (g_elements g) = cols E /\
    forall n, validNumbering n (cols V) (cols E) -> exists vs es ds,
      rawVertices g n = Some vs /\ rawElements g n = Some es /\ rawDomains g n = Some ds /\
      length vs = cols V /\ length es = cols E /\ length ds = cols E /\
      (forall i j, In (i, j) (vertexOrder n) -> nth_error vs i = Some (Some (column V j))) /\
      (forall i j, In (i, j) (elementOrder n) -> exists a b c, nth_error es i = Some (Some (a, b, c)) /\
         In (a, Z.to_nat (at_ E 0 j)) (vertexOrder n) /\ In (b, Z.to_nat (at_ E 1 j)) (vertexOrder n) /\
         In (c, Z.to_nat (at_ E 2 j)) (vertexOrder n)) /\
      (forall i j, In (i, j) (elementOrder n) ->
         nth_error ds i = Some (match domains with [] => Some 0 | _ => nth_error domains j end))) /\
  (~ (cornersInRange E (cols V) /\ domainsMatch domains E) -> gridFromElementData V E domains = Raises).
Proof.
  intros D V E dom RV RE. rewrite create_eq by assumption. split.
  - intros C M. pose proof (proj1 (inRange_forallb E (cols V)) C) as F. rewrite F.
    replace (negb (length dom =? 0) && negb (length dom =? cols E)) with false
      by (destruct M as [-> | ->]; cbn; [reflexivity|]; now rewrite Nat.eqb_refl, andb_false_r).
    exists (made V E dom). split; [reflexivity|]. cbn [g_vertices g_elements made]. rewrite !map_length, !seq_length. split; [reflexivity|]. split; [reflexivity|].
    intros n [NV NE]. assert (LD : length (g_domains (made V E dom)) = cols E).
    { cbn. destruct M as [-> | M]; cbn; [now rewrite repeat_length|]. destruct (Nat.eqb_spec (length dom) 0) as [Z|_]; [rewrite repeat_length|]; congruence. }
    destruct (@rawVertices_ok _ (made V E dom) n) as (vs & E1 & L1 & P1); [cbn; now rewrite map_length, seq_length|].
    destruct (@rawElements_ok _ (made V E dom) n) as (es & E2 & L2 & P2); [cbn; now rewrite map_length, seq_length|].
    destruct (@rawDomains_ok _ (made V E dom) n) as (ds & E3 & L3 & P3); [now rewrite LD|].
    cbn [g_vertices g_elements made] in L1, L2, P1. rewrite map_length, seq_length in L1, L2.
    destruct (numbers_facts NV) as (_ & _ & _ & BV & SV & _). destruct (numbers_facts NE) as (_ & _ & _ & BE & SE & _).
    exists vs, es, ds. split; [exact E1|]. split; [exact E2|]. split; [exact E3|]. split; [exact L1|]. split; [exact L2|]. split; [now rewrite L3|]. split; [|split].
    + intros i j I. rewrite (P1 _ _ I), nth_error_map, nth_error_seq. destruct (BV _ _ I) as [_ B]. apply Nat.ltb_lt in B. now rewrite B.
    + intros i j I. destruct (BE _ _ I) as [_ B].
      assert (S : forall k, k < 3 -> exists a, In (a, Z.to_nat (at_ E k j)) (vertexOrder n)) by (intros k K; apply SV; specialize (C k j K B); lia).
      destruct (S 0) as (a & A); [lia|]. destruct (S 1) as (b & B'); [lia|]. destruct (S 2) as (c & C'); [lia|]. exists a, b, c.
      split; [|split; [exact A|split; [exact B'|exact C']]]. rewrite (P2 _ _ I). f_equal.
      apply (@corners_ok _ _ n j (Z.to_nat (at_ E 0 j)) (Z.to_nat (at_ E 1 j)) (Z.to_nat (at_ E 2 j)) a b c (cols V) NV); auto.
      cbn. rewrite nth_error_map, nth_error_seq. apply Nat.ltb_lt in B. now rewrite B.
    + intros i j I. rewrite (P3 _ _ I). f_equal. destruct (BE _ _ I) as [_ B]. destruct dom as [|d0 dom]; [|reflexivity].
      cbn. now apply nth_error_repeat.
  - intros H. destruct (negb (length dom =? 0) && negb (length dom =? cols E)) eqn:G; [reflexivity|].
    destruct (forallb _ _) eqn:F; [|reflexivity]. exfalso. apply H. split; [now apply inRange_forallb|].
    apply andb_false_iff in G as [G|G]; apply negb_false_iff, Nat.eqb_eq in G; [left; now apply length_zero_iff_nil|now right].
Qed.
Print Assumptions C176_element_data_round_trip.
Definition exV : array nat := {| rows := 3; cols := 4; at_ := fun i j => 10 * i + j |}.
Definition exE : array Z := {| rows := 3; cols := 2; at_ := fun i j => Z.of_nat (match j with 0 => i | _ => S i end) |}.
Definition exN : numbering := {| vertexOrder := [(2, 0); (0, 1); (1, 3); (3, 2)]; elementOrder := [(0, 1); (1, 0)] |}.
Example C176_instance : rows exV = 3 /\ rows exE = 3 /\ cornersInRange exE (cols exV) /\ domainsMatch [7; 8] exE /\ validNumbering exN 4 2 /\
  match gridFromElementData exV exE [7; 8] with
  | Returns g => rawElements g exN = Some [Some (0, 3, 1); Some (2, 0, 3)] /\ rawDomains g exN = Some [Some 8; Some 7] | _ => False end.
Proof.
  split; [reflexivity|]. split; [reflexivity|]. split.
  { intros i j I J. cbn in J. destruct i as [|[|[|]]], j as [|[|]]; cbn; lia. }
  split; [right; reflexivity|]. split; [|split; reflexivity].
  split; split; apply NoDup_Permutation; first [repeat constructor; cbn; lia|apply seq_NoDup|intros x; cbn; lia].
Qed.

(** C177. Arrays with another number of rows should be rejected.  What holds: with three or more rows nothing outside the arrays is
    read. *)
Theorem C177_enough_rows_partial : forall D (V : array D) (E : array Z) domains, 3 <= rows V -> 3 <= rows E ->
  gridFromElementData V E domains <> Undefined.
Proof.
  intros D V E dom RV RE. unfold gridFromElementData, createGridFromConnectivityArrays. destruct (_ && _); [discriminate|].
  assert (G : forall A (a : array A) j, 3 <= rows a -> j < cols a -> exists v, mapColumn (memory a) j = Some v).
  { intros A a j R J. unfold mapColumn.
    assert (H : forall k, k < 3 * cols a -> exists x, nth_error (memory a) k = Some x).
    { intros k K. destruct (nth_error (memory a) k) eqn:X; [eauto|]. apply nth_error_None in X. rewrite memory_length in X. nia. }
    destruct (H (3 * j)) as (x & ->); [lia|]. destruct (H (3 * j + 1)) as (y & ->); [lia|]. destruct (H (3 * j + 2)) as (z & ->); [lia|]. eauto. }
  assert (H1 : forall js, (forall j, In j js -> j < cols V) -> exists l, insertVertices (memory V) js = Some l).
  { induction js as [|j r IH]; cbn; intros H; [eauto|]. destruct (G _ V j RV) as (v & ->); [apply H; now left|].
    destruct IH as (l & ->); [intros; apply H; now right|]. cbn. eauto. }
  destruct (H1 (seq 0 (cols V))) as (l & ->); [intros j J; apply in_seq in J; lia|].
  assert (H2 : forall js, (forall j, In j js -> j < cols E) -> insertElements (cols V) (memory E) js <> Undefined).
  { induction js as [|j r IH]; cbn; intros H; [discriminate|]. destruct (G _ E j RE) as (v & ->); [apply H; now left|]. destruct v as [[a b] c].
    destruct (_ || _ || _); [discriminate|]. specialize (IH ltac:(intros; apply H; now right)). destruct (insertElements _ _ r); easy. }
  specialize (H2 (seq 0 (cols E)) ltac:(intros j J; apply in_seq in J; lia)). destruct (insertElements _ _ _); easy.
Qed.
Print Assumptions C177_enough_rows_partial.

(** But an array of elements with a fourth row is accepted and makes other elements than its columns, although the corners in its
    first three rows are fine; and vertices with two coordinates are read beyond the end of the array. *)
Theorem C177_rows_checked_refuted :
  (exists (V : array nat) (E : array Z) g, rows V = 3 /\ rows E = 4 /\ cornersInRange E (cols V) /\
     gridFromElementData V E [] = Returns g /\
     nth_error (g_elements g) 1 <> Some (Z.to_nat (at_ E 0 1), Z.to_nat (at_ E 1 1), Z.to_nat (at_ E 2 1))) /\
  (exists (V : array nat) (E : array Z), rows V = 2 /\ rows E = 3 /\ cornersInRange E (cols V) /\ gridFromElementData V E [] = Undefined).
Proof.
  split.
  - exists exV, {| rows := 4; cols := 2; at_ := fun i j => match i, j with 3, _ => 3%Z | _, 0 => Z.of_nat i | _, _ => Z.of_nat (S i) end |}. eexists.
    split; [reflexivity|]. split; [reflexivity|]. split; [|split; [reflexivity|discriminate]].
    intros i j I J. cbn in J. destruct i as [|[|[|]]], j as [|[|]]; cbn; lia.
  - exists {| rows := 2; cols := 4; at_ := fun i j => i + j |}, exE. split; [reflexivity|]. split; [reflexivity|]. split; [|reflexivity].
    intros i j I J. cbn in J. destruct i as [|[|[|]]], j as [|[|]]; cbn; lia.
Qed.
Print Assumptions C177_rows_checked_refuted.

(** C178. structured_grid for the axes "xy", "xz" and "yz" makes the uniform triangulation of the rectangle in the plane of these axes at
    the given offset: its vertices are the lattice points, its triangles the two halves of every cell, and every triangle's normal
    points along the third axis: +z, -y and +x for a rectangle with positive sides. *)
Theorem C178_structured_planes : forall n lx ly ux uy nx ny ax offset, 0 < nx -> 0 < ny -> ax <> Other ->
  validNumbering n ((nx + 1) * (ny + 1)) (2 * (nx * ny)) ->
  let P := latticePoint ax offset lx ly ux uy nx ny in
  exists g, structuredGrid n [lx; ly] [ux; uy] [Z.of_nat nx; Z.of_nat ny] ax offset = Returns g /\
    Permutation (g_vertices g) (map (fun c => P (fst c) (snd c)) (cells (nx + 1) (ny + 1))) /\
    Permutation (map (triangleOf (g_vertices g)) (g_elements g)) (map Some (flat_map (cellTriangles P) (cells nx ny))) /\
    forall t, In t (flat_map (cellTriangles P) (cells nx ny)) ->
      normalVector t = axisNormal ax (((ux - lx) / INR nx) * ((uy - ly) / INR ny)).
Proof.
  intros n lx ly ux uy nx ny ax o HX HY HA N P.
  destruct (@structured_ok lx ly ux uy nx ny ax o HX HY HA n N) as (g & E & V & T).
  exists g. split; [exact E|]. split; [|split].
  - apply (Permutation_trans V). apply V0_perm; assumption.
  - apply (Permutation_trans T). rewrite E0_triangles by assumption. apply Permutation_map, Permutation_flat_map, cells_miAll, HX.
  - intros t I. apply in_flat_map in I as ([x y] & _ & I).
    assert (NX : INR nx <> 0%R) by (apply not_0_INR; lia). assert (NY : INR ny <> 0%R) by (apply not_0_INR; lia).
    destruct I as [<-|[<-|[]]]; unfold P, latticePoint; rewrite !plus_INR; cbn [INR]; destruct ax; try easy; cbn [placed axisNormal normalVector];
      unfold px, py, pz; cbn [fst snd]; repeat apply (f_equal2 (@pair _ _)); field; auto.
Qed.
Print Assumptions C178_structured_planes.

(** Corners that are not pairs, subdivisions that are not pairs or not positive, and other axes are rejected. *)
Theorem C178_structured_rejects : forall n ll ur sub ax offset,
  (length ll <> 2 \/ length ur <> 2 \/ length sub <> 2 \/ (exists s, In s sub /\ (s < 1)%Z) ->
     structuredGrid n ll ur sub ax offset = Raises) /\
  (forall nx ny, 0 < nx -> 0 < ny -> sub = [Z.of_nat nx; Z.of_nat ny] -> validNumbering n ((nx + 1) * (ny + 1)) (2 * (nx * ny)) ->
     structuredGrid n ll ur sub Other offset = Raises).
Proof.
  intros n ll ur sub ax o. split.
  - intros H. unfold structuredGrid. replace (structuredGridCore ll ur sub) with (@Raises (grid point)); [reflexivity|].
    unfold structuredGridCore. destruct ll as [|? [|? [|]]]; try reflexivity. destruct ur as [|? [|? [|]]]; try reflexivity.
    destruct sub as [|a [|b [|]]]; try reflexivity. destruct H as [H|[H|[H|(s & I & S)]]]; try (exfalso; now apply H).
    replace ((a <? 1)%Z || (b <? 1)%Z) with true; [reflexivity|]. symmetry. apply orb_true_iff. rewrite !Z.ltb_lt. cbn in I. destruct I as [<- | [<- | []]]; auto.
  - intros nx ny HX HY -> N. destruct ll as [|lx [|ly [|]]]; try reflexivity. destruct ur as [|ux [|uy [|]]]; try reflexivity.
    destruct (@structured_ok lx ly ux uy nx ny XY o HX HY ltac:(discriminate) n N) as (g & E & _). unfold structuredGrid in *.
    destruct (structuredGridCore _ _ _); try discriminate. destruct (option_map _ _) as [[|]|]; try discriminate. destruct (option_map _ _) as [[|]|]; try discriminate. reflexivity.
Qed.
Print Assumptions C178_structured_rejects.
Definition exN1 : numbering := {| vertexOrder := [(0, 0); (2, 1); (1, 2); (3, 3)]; elementOrder := [(1, 0); (0, 1)] |}.
Example C178_instance : 0 < 1 /\ XZ <> Other /\ validNumbering exN1 ((1 + 1) * (1 + 1)) (2 * (1 * 1)) /\
  cells 1 1 = [(0, 0)] /\ placed XZ 5 1 2 = (1, 5, 2)%R.
Proof.
  split; [lia|]. split; [discriminate|]. split; [|split; reflexivity].
  split; split; apply NoDup_Permutation; first [repeat constructor; cbn; lia|apply seq_NoDup|intros x; cbn; lia].
Qed.
