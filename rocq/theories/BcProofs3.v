From Coq Require Import Reals Lra Sorted.
From Verif Require Import Base ComplexR SegModel SegSpec SegProofs AsmModel SpaceModel SpaceSpec SpaceProofs SpaceP1Proofs SpaceRwgProofs PolySpec VecModel VecSpec VecProofs3 VecProofs4
  BaryModel BarySpec BaryProofs BaryProofs2 BaryProofs3 BaryProofs4 BcModel BcSpec BcProofs BcProofs2.
Set Implicit Arguments.
Unset Strict Implicit.
Local Open Scope Z_scope.

Definition vtx (e : selt) (k : nat) : Z := nth k (s_verts e) 0.
Definition edg (e : selt) (s : nat) : Z := nth s (map fst (s_facets e)) 0.
Ltac dig k := destruct k as [|[|[|k]]]; [| | |lia].

Section Tri.
Variable g : sgrid.
Hypotheses (G : gridOk g) (TR : triangulation g).
Lemma side_edg e s i : In e (g_elts g) -> (sideIs e s i <-> (s < 3)%nat /\ i = edg e s).
Proof.
  intro I. destruct (triangulation_triangles TR I) as (L & _). unfold sideIs, edg. split.
  - intro H. split; [|symmetry; now apply nth_error_nth]. assert (nth_error (map fst (s_facets e)) s <> None) by congruence. apply nth_error_Some in H0. rewrite map_length in H0. lia.
  - intros (H & ->). apply nth_error_nth'. rewrite map_length. lia.
Qed.
Lemma corner_vtx e k v : In e (g_elts g) -> (nth_error (s_verts e) k = Some v <-> (k < 3)%nat /\ v = vtx e k).
Proof.
  intro I. destruct (proj1 TR e I) as (a & b & c & _ & _ & _ & V & _). unfold vtx. rewrite V. split.
  - intro H. split; [|symmetry; now apply nth_error_nth]. assert (nth_error [a; b; c] k <> None) by congruence. apply nth_error_Some in H0. exact H0.
  - intros (H & ->). dig k; reflexivity.
Qed.
Lemma vtx_inj e k k' : In e (g_elts g) -> (k < 3)%nat -> (k' < 3)%nat -> vtx e k = vtx e k' -> k = k'.
Proof.
  intros I H H' E. destruct (proj1 TR e I) as (a & b & c & _ & _ & _ & V & N & _). unfold vtx in E. rewrite V in E.
  apply (proj1 (NoDup_nth [a; b; c] 0) N); cbn [length]; auto.
Qed.
Lemma edg_inj e k k' : In e (g_elts g) -> (k < 3)%nat -> (k' < 3)%nat -> edg e k = edg e k' -> k = k'.
Proof.
  intros I H H' E. destruct (triangulation_triangles TR I) as (L & N). apply (proj1 (NoDup_nth (map fst (s_facets e)) 0) N); rewrite ?map_length; try lia. exact E.
Qed.
Lemma vtx_range e k : In e (g_elts g) -> (k < 3)%nat -> 0 <= vtx e k < g_n2 g.
Proof.
  intros I K. destruct G as (_ & _ & _ & RV & _). apply (RV e _ I). unfold hasVertex. pose proof (proj2 (@corner_vtx e k (vtx e k) I) (Logic.conj K eq_refl)) as H. eapply nth_error_In; exact H.
Qed.
Lemma edg_range e s : In e (g_elts g) -> (s < 3)%nat -> 0 <= edg e s < g_n1 g.
Proof. intros I K. eapply (@facet_range g G e s). exact I. now apply side_edg. Qed.
(** ends of side s *)
Lemma facet_ends e s : In e (g_elts g) -> (s < 3)%nat ->
  exists f, In f (s_facets e) /\ fst f = edg e s /\ forall v, In v (snd f) <-> v = vtx e (firstCorner s) \/ v = vtx e (secondCorner s).
Proof.
  intros I H. destruct (proj1 TR e I) as (a & b & c & i & j & k & V & N & F). unfold edg, vtx. rewrite V, F.
  dig s; cbn [map fst nth firstCorner secondCorner]; eexists; (split; [|split]); [left; reflexivity|reflexivity|cbn; intuition congruence|right; left; reflexivity|reflexivity|cbn; intuition congruence|right; right; left; reflexivity|reflexivity|cbn; intuition congruence].
Qed.
Lemma same_edge e s e' s' : In e (g_elts g) -> In e' (g_elts g) -> (s < 3)%nat -> (s' < 3)%nat ->
  (edg e s = edg e' s' <-> forall v, (v = vtx e (firstCorner s) \/ v = vtx e (secondCorner s)) <-> (v = vtx e' (firstCorner s') \/ v = vtx e' (secondCorner s'))).
Proof.
  intros I I' H H'. destruct (facet_ends I H) as (f & F1 & F2 & F3). destruct (facet_ends I' H') as (f' & F1' & F2' & F3').
  destruct TR as (_ & B & _). rewrite <- F2, <- F2'. rewrite (B e e' f f' I I' F1 F1'). split; intros X v; specialize (X v); specialize (F3 v); specialize (F3' v); tauto.
Qed.
Lemma corners_lt s : (s < 3)%nat -> (firstCorner s < 3)%nat /\ (secondCorner s < 3)%nat /\ firstCorner s <> secondCorner s.
Proof. intro. dig s; cbn; lia. Qed.
Lemma sides_lt k : (k < 3)%nat -> (sideInto k < 3)%nat /\ (sideOutOf k < 3)%nat /\ sideInto k <> sideOutOf k /\ firstCorner (sideInto k) = k /\ secondCorner (sideOutOf k) = k.
Proof. intro. dig k; cbn; lia. Qed.
Lemma into_first s : (s < 3)%nat -> sideInto (firstCorner s) = s /\ sideOutOf (secondCorner s) = s.
Proof. intro. dig s; cbn; auto. Qed.
(** sides on an edge *)
Lemma in_sides i x s : In (x, s) (sidesOn g i) <-> exists e, In e (g_elts g) /\ s_index e = x /\ (s < 3)%nat /\ edg e s = i.
Proof.
  split.
  - intro H. apply sidesOn_inv in H as (e & I & X & S). apply side_edg in S as (S & E); [|exact I]. exists e. auto.
  - intros (e & I & <- & S & <-). apply in_sidesOn; [exact I|]. now apply side_edg.
Qed.
Lemma sides_NoDup i : NoDup (sidesOn g i).
Proof.
  unfold sidesOn. apply NoDup_flat_map.
  - now apply NoDup_indices.
  - intros e I. apply NoDup_flat_map; [apply seq_NoDup| |].
    + intros k _. destruct (nth_error (map fst (s_facets e)) k); [|constructor]. destruct (z =? i); repeat constructor. intros [].
    + intros k k' x _ _ A B. destruct (nth_error (map fst (s_facets e)) k); [|destruct A]. destruct (z =? i); [|destruct A]. destruct A as [<-|[]].
      destruct (nth_error (map fst (s_facets e)) k'); [|destruct B]. destruct (z0 =? i); [|destruct B]. destruct B as [B|[]]. now injection B.
  - intros e e' x I I' A B. apply (@indices_inj _ _ _ (gridOk_indices G) I I'). apply in_flat_map in A as (k & _ & A). apply in_flat_map in B as (k' & _ & B).
    destruct (nth_error (map fst (s_facets e)) k); [|destruct A]. destruct (z =? i); [|destruct A]. destruct A as [<-|[]].
    destruct (nth_error (map fst (s_facets e')) k'); [|destruct B]. destruct (z0 =? i); [|destruct B]. destruct B as [B|[]]. now injection B.
Qed.
Lemma two_sides i x y : In x (sidesOn g i) -> In y (sidesOn g i) -> x <> y -> (2 <= length (sidesOn g i))%nat.
Proof.
  intros A B N. change 2%nat with (length [x; y]). apply NoDup_incl_length; [repeat constructor; cbn; intuition|]. intros z [<-|[<-|[]]]; assumption.
Qed.
Lemma one_side i x y : length (sidesOn g i) = 1%nat -> In x (sidesOn g i) -> In y (sidesOn g i) -> x = y.
Proof. destruct (sidesOn g i) as [|a [|b l]]; try discriminate. intros _ [<-|[]] [<-|[]]. reflexivity. Qed.
Lemma three_sides i x y z : (length (sidesOn g i) <= 2)%nat -> In x (sidesOn g i) -> In y (sidesOn g i) -> In z (sidesOn g i) -> x <> y -> z = x \/ z = y.
Proof.
  intros L A B C N. destruct (sidesOn g i) as [|a [|b [|c l]]] eqn:E; cbn in *; try lia; intuition congruence.
Qed.
End Tri.

(** ---- the refinement ---- *)
Inductive fk := VB (v b : Z) | VM (v i : Z) | MB (i b : Z).
Section Ref.
Variables (g fg : sgrid) (son : Z -> nat -> Z).
Hypotheses (G : gridOk g) (TR : triangulation g) (RF : refinement g fg son).
Definition FG : gridOk fg := proj1 RF.
Definition FT : triangulation fg := proj1 (proj2 RF).
Definition SN : sonNumbering (g_n0 g) son := proj1 (proj2 (proj2 RF)).
Definition mside (k : nat) (odd : bool) : nat := if odd then sideOutOf k else sideInto k.
Definition face (x : selt * nat) (odd : bool) : Z := son (s_index (fst x)) (2 * snd x + (if odd then 1 else 0)).
Definition corner (x : selt * nat) : Prop := In (fst x) (g_elts g) /\ (snd x < 3)%nat.
Definition kindOf (x : selt * nat) (odd : bool) (t : nat) : fk :=
  let v := vtx (fst x) (snd x) in let m := edg (fst x) (mside (snd x) odd) in let b := s_index (fst x) in
  match t, odd with O, true => VM v m | S O, true => VB v b | O, false => VB v b | S O, false => VM v m | _, _ => MB m b end.
Definition fT (x : selt * nat) (odd : bool) : selt :=
  match find (fun t => s_index t =? face x odd) (g_elts fg) with Some t => t | None => fst x end.

Lemma face_inj x odd y odd' : corner x -> corner y -> face x odd = face y odd' -> x = y /\ odd = odd'.
Proof.
  destruct x as (e, k), y as (e', k'). intros (I & K) (I' & K') E. cbn [fst snd] in *. unfold face in E. cbn [fst snd] in E.
  pose proof G as (_ & RI & _). pose proof (RI e I) as R. pose proof (RI e' I') as R'. destruct SN as (_ & INJ).
  destruct (INJ _ (2 * k + (if odd then 1 else 0))%nat _ (2 * k' + (if odd' then 1 else 0))%nat R ltac:(destruct odd; lia) R' ltac:(destruct odd'; lia) E) as (A & B).
  assert (e = e') by (now apply (@indices_inj _ _ _ (gridOk_indices G))). subst e'. assert (k = k' /\ odd = odd') as (-> & ->) by (destruct odd, odd'; split; try reflexivity; lia). auto.
Qed.
Lemma face_range x odd : corner x -> 0 <= face x odd < Z.of_nat (length (g_elts fg)).
Proof.
  intros (I & K). pose proof G as (_ & RI & _). destruct SN as (R & _). unfold face.
  destruct RF as (_ & _ & _ & L & _). rewrite L. specialize (R _ (2 * snd x + (if odd then 1 else 0))%nat (RI _ I) ltac:(destruct odd; lia)). unfold g_n0 in R. lia.
Qed.
Lemma fT_spec x odd : corner x -> In (fT x odd) (g_elts fg) /\ s_index (fT x odd) = face x odd /\
  s_verts (fT x odd) = let v := vtx (fst x) (snd x) in let m := g_n2 g + edg (fst x) (mside (snd x) odd) in let b := g_n2 g + g_n1 g + s_index (fst x) in if odd then [v; m; b] else [v; b; m].
Proof.
  intros (I & K). destruct RF as (_ & _ & _ & _ & H). destruct (H (fst x) (2 * snd x + (if odd then 1 else 0))%nat I) as (t & It & Jt & Vt); [destruct odd; lia|].
  unfold fT. destruct (find (fun t => s_index t =? face x odd) (g_elts fg)) as [t'|] eqn:F.
  - apply find_some in F as (I' & E'). apply Z.eqb_eq in E'. assert (t' = t). { apply (@indices_inj _ _ _ (gridOk_indices FG) I' It). unfold face in E'. congruence. } subst t'.
    split; [exact It|]. split; [exact Jt|]. rewrite Vt. unfold sonVertices, vtx, edg, mside. destruct (snd x) as [|[|[|]]]; [| | |lia]; destruct odd; reflexivity.
  - exfalso. apply (find_none _ _ F) in It. unfold face in It. rewrite Jt, Z.eqb_refl in It. discriminate.
Qed.
Lemma all_faces j : 0 <= j < Z.of_nat (length (g_elts fg)) -> exists x odd, corner x /\ j = face x odd.
Proof.
  intro H. destruct RF as (_ & _ & (RS & INJ) & L & _).
  set (l := map (fun p : selt * nat => son (s_index (fst p)) (snd p)) (sonPairs g)).
  assert (ND : NoDup l).
  { apply NoDup_map_on; [now apply sonPairs_NoDup|]. intros (e, i) (e', i') P P' E. apply in_sonPairs in P as (P & Q). apply in_sonPairs in P' as (P' & Q'). cbn [fst snd] in E.
    pose proof G as (_ & RI & _). destruct (INJ _ i _ i' (RI _ P) Q (RI _ P') Q' E) as (A & ->). f_equal. now apply (@indices_inj _ _ _ (gridOk_indices G)). }
  assert (LL : length l = length (g_elts fg)) by (unfold l; now rewrite map_length, sonPairs_length).
  assert (SUB : incl l (zrange (Z.of_nat (length (g_elts fg))))).
  { intros z Z. unfold l in Z. apply in_map_iff in Z as ((e, i) & <- & P). apply in_sonPairs in P as (P & Q). cbn [fst snd]. apply in_zrange. pose proof G as (_ & RI & _). specialize (RS _ i (RI _ P) Q). unfold g_n0 in RS. lia. }
  assert (COV : incl (zrange (Z.of_nat (length (g_elts fg)))) l).
  { apply NoDup_length_incl; [exact ND| |exact SUB]. rewrite zrange_length. lia. }
  assert (J : In j l) by (apply COV; now apply in_zrange). unfold l in J. apply in_map_iff in J as ((e, i) & <- & P). apply in_sonPairs in P as (P & Q). cbn [fst snd].
  exists (e, (i / 2)%nat), (Nat.odd i). split; [split; [exact P|]|].
  - cbn [snd]. destruct i as [|[|[|[|[|[|]]]]]]; cbn; lia.
  - unfold face. cbn [fst snd]. f_equal. destruct i as [|[|[|[|[|[|]]]]]]; cbn; lia.
Qed.
Lemma all_fT t : In t (g_elts fg) -> exists x odd, corner x /\ t = fT x odd.
Proof.
  intro I. pose proof FG as (_ & RI & _). destruct (@all_faces (s_index t)) as (x & odd & C & E); [specialize (RI t I); unfold g_n0 in RI; lia|].
  exists x, odd. split; [exact C|]. destruct (fT_spec odd C) as (A & B & _). apply (@indices_inj _ _ _ (gridOk_indices FG) I A). congruence.
Qed.
Definition fe (x : selt * nat) (odd : bool) (t : nat) : Z := edg (fT x odd) t.
Lemma fT_ends x odd t : corner x -> (t < 3)%nat -> forall v,
  (v = vtx (fT x odd) (firstCorner t) \/ v = vtx (fT x odd) (secondCorner t)) <->
  match kindOf x odd t with VB a b => v = a \/ v = g_n2 g + g_n1 g + b | VM a i => v = a \/ v = g_n2 g + i | MB i b => v = g_n2 g + i \/ v = g_n2 g + g_n1 g + b end.
Proof.
  intros C T v. destruct (fT_spec odd C) as (_ & _ & V). unfold vtx at 1 2. rewrite V. unfold kindOf. dig t; destruct odd; cbn [firstCorner secondCorner nth]; tauto.
Qed.
Definition kindOk (k : fk) : Prop := match k with VB v b => 0 <= v < g_n2 g /\ 0 <= b /\ 0 <= g_n1 g | VM v i => 0 <= v < g_n2 g /\ 0 <= i < g_n1 g | MB i b => 0 <= i < g_n1 g /\ 0 <= b end.
Lemma kind_ok x odd t : corner x -> kindOk (kindOf x odd t).
Proof.
  intros (I & K). pose proof G as (_ & RI & _). pose proof (RI _ I) as R. pose proof (vtx_range G TR I K) as V.
  assert (M : (mside (snd x) odd < 3)%nat) by (unfold mside; destruct (sides_lt K) as (A & B & _); destruct odd; assumption).
  pose proof (edg_range G TR I M) as E. unfold kindOf. cbv zeta. revert E V R. generalize (edg (fst x) (mside (snd x) odd)) (vtx (fst x) (snd x)) (s_index (fst x)). intros m v b E V R. destruct t as [|[|t]], odd; cbn [kindOk]; lia.
Qed.
Lemma fe_kind x odd t y odd' t' : corner x -> corner y -> (t < 3)%nat -> (t' < 3)%nat -> (fe x odd t = fe y odd' t' <-> kindOf x odd t = kindOf y odd' t').
Proof.
  intros C C' T T'. unfold fe. destruct (fT_spec odd C) as (I & _). destruct (fT_spec odd' C') as (I' & _). rewrite (same_edge FT I I' T T').
  pose proof (kind_ok odd t C) as K. pose proof (kind_ok odd' t' C') as K'.
  pose proof (fT_ends odd C T) as E. pose proof (fT_ends odd' C' T') as E'. split.
  - intro H. assert (X : forall v, match kindOf x odd t with VB a b => v = a \/ v = g_n2 g + g_n1 g + b | VM a i => v = a \/ v = g_n2 g + i | MB i b => v = g_n2 g + i \/ v = g_n2 g + g_n1 g + b end <->
      match kindOf y odd' t' with VB a b => v = a \/ v = g_n2 g + g_n1 g + b | VM a i => v = a \/ v = g_n2 g + i | MB i b => v = g_n2 g + i \/ v = g_n2 g + g_n1 g + b end).
    { intro v. rewrite <- E, <- E'. apply H. }
    clear H E E'. destruct (kindOf x odd t) as [v b|v i|i b], (kindOf y odd' t') as [v' b'|v' i'|i' b']; cbn in K, K'.
    + assert (v = v') by (destruct (proj1 (X v)); auto; lia). assert (b = b') by (destruct (proj1 (X (g_n2 g + g_n1 g + b))); auto; lia). congruence.
    + exfalso. destruct (proj1 (X (g_n2 g + g_n1 g + b))); auto; lia.
    + exfalso. destruct (proj1 (X v)); auto; lia.
    + exfalso. destruct (proj1 (X (g_n2 g + i))); auto; lia.
    + assert (v = v') by (destruct (proj1 (X v)); auto; lia). assert (i = i') by (destruct (proj1 (X (g_n2 g + i))); auto; lia). congruence.
    + exfalso. destruct (proj1 (X v)); auto; lia.
    + exfalso. destruct (proj1 (X (g_n2 g + i))); auto; lia.
    + exfalso. destruct (proj1 (X (g_n2 g + g_n1 g + b))); auto; lia.
    + assert (i = i') by (destruct (proj1 (X (g_n2 g + i))); auto; lia). assert (b = b') by (destruct (proj1 (X (g_n2 g + g_n1 g + b))); auto; lia). congruence.
  - intros H v. rewrite E, E', H. reflexivity.
Qed.
Lemma fe_range x odd t : corner x -> (t < 3)%nat -> 0 <= fe x odd t < g_n1 fg.
Proof. intros C T. apply (edg_range FG FT); [apply (fT_spec odd C)|exact T]. Qed.
(** sides on a fine edge *)
Lemma fine_sides z f t : In (f, t) (sidesOn fg z) <-> exists x odd, corner x /\ f = face x odd /\ (t < 3)%nat /\ fe x odd t = z.
Proof.
  rewrite (in_sides FT). split.
  - intros (e & I & <- & T & <-). destruct (all_fT I) as (x & odd & C & ->). exists x, odd. split; [exact C|]. split; [apply (fT_spec odd C)|]. auto.
  - intros (x & odd & C & -> & T & <-). exists (fT x odd). destruct (fT_spec odd C) as (A & B & _). auto.
Qed.
End Ref.
