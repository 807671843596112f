(** Decision procedures for the hypotheses of C128 (for the examples); refinements of concrete grids. *)
From Verif Require Import Base SegModel SegSpec SegProofs SpaceModel SpaceSpec SpaceProofs PolySpec VecSpec BaryModel BarySpec BcModel BcSpec.
Set Implicit Arguments.
Unset Strict Implicit.
Local Open Scope Z_scope.

Fixpoint nodupb (l : list Z) : bool := match l with [] => true | x :: r => negb (smem x r) && nodupb r end.
Lemma nodupb_ok l : nodupb l = true -> NoDup l.
Proof. induction l as [|x l IH]; [constructor|]. cbn. rewrite andb_true_iff, negb_true_iff, smem_false. intros (A & B). constructor; auto. Qed.
Definition inRange (n x : Z) : bool := (0 <=? x) && (x <? n).
Lemma inRange_ok n x : inRange n x = true -> 0 <= x < n.
Proof. unfold inRange. rewrite andb_true_iff, Z.leb_le, Z.ltb_lt. tauto. Qed.
Definition gridOkb (g : sgrid) : bool :=
  nodupb (map s_index (g_elts g)) &&
  forallb (fun e => inRange (g_n0 g) (s_index e) && forallb (fun f => inRange (g_n1 g) (fst f) && forallb (fun i => smem i (s_verts e)) (snd f)) (s_facets e) &&
                    forallb (inRange (g_n2 g)) (s_verts e)) (g_elts g).
Lemma gridOkb_ok g : gridOkb g = true -> gridOk g.
Proof.
  unfold gridOkb. rewrite andb_true_iff, forallb_forall. intros (A & B).
  assert (C : forall e, In e (g_elts g) -> inRange (g_n0 g) (s_index e) = true /\ (forall f, In f (s_facets e) -> inRange (g_n1 g) (fst f) = true /\ forall i, In i (snd f) -> smem i (s_verts e) = true) /\
      forall i, In i (s_verts e) -> inRange (g_n2 g) i = true).
  { intros e I. specialize (B e I). rewrite !andb_true_iff, !forallb_forall in B. destruct B as ((B1 & B2) & B3). split; [exact B1|]. split; [|exact B3].
    intros f F. specialize (B2 f F). rewrite andb_true_iff, forallb_forall in B2. exact B2. }
  split; [now apply nodupb_ok|]. split; [|split; [|split]].
  - intros e I. apply inRange_ok. now apply C.
  - intros e i I H. apply inRange_ok. unfold hasFacet in H. apply in_map_iff in H as (f & <- & F). now apply C in F.
  - intros e i I H. apply inRange_ok. now apply (C e I).
  - intros e f i I F J. destruct (C e I) as (_ & C2 & _). apply smem_In. now apply (C2 f F).
Qed.

Definition sameSet (l l' : list Z) : bool := forallb (fun x => smem x l') l && forallb (fun x => smem x l) l'.
Lemma sameSet_ok l l' : sameSet l l' = true <-> forall v, In v l <-> In v l'.
Proof.
  unfold sameSet. rewrite andb_true_iff, !forallb_forall. split.
  - intros (A & B) v. split; intro I; [apply smem_In, A, I|apply smem_In, B, I].
  - intro H. split; intros x I; apply smem_In, H, I.
Qed.
Definition triangleb (e : selt) : bool :=
  match s_verts e, s_facets e with
  | [a; b; c], [(i, [a1; b1]); (j, [a2; c1]); (k, [b2; c2])] =>
    nodupb [a; b; c] && (a1 =? a) && (b1 =? b) && (a2 =? a) && (c1 =? c) && (b2 =? b) && (c2 =? c)
  | _, _ => false end.
Definition triangulationb (g : sgrid) : bool :=
  let fs := flat_map s_facets (g_elts g) in
  forallb triangleb (g_elts g) &&
  forallb (fun f => forallb (fun f' => Bool.eqb (fst f =? fst f') (sameSet (snd f) (snd f'))) fs) fs &&
  forallb (fun e => forallb (fun e' => (s_index e =? s_index e') || negb (sameSet (s_verts e) (s_verts e'))) (g_elts g)) (g_elts g).
Lemma triangulationb_ok g : gridOk g -> triangulationb g = true -> triangulation g.
Proof.
  intro G. unfold triangulationb. rewrite !andb_true_iff, !forallb_forall. intros ((A & B) & C). split; [|split].
  - intros e I. specialize (A e I). unfold triangleb in A. destruct (s_verts e) as [|a [|b [|c [|]]]]; try discriminate.
    destruct (s_facets e) as [|(i & l1) [|(j & l2) [|(k & l3) [|]]]]; try discriminate; destruct l1 as [|a1 [|b1 [|]]]; try discriminate; destruct l2 as [|a2 [|c1 [|]]]; try discriminate; destruct l3 as [|b2 [|c2 [|]]]; try discriminate.
    rewrite !andb_true_iff, !Z.eqb_eq in A. destruct A as ((((((A & ->) & ->) & ->) & ->) & ->) & ->). exists a, b, c, i, j, k. split; [reflexivity|]. split; [now apply nodupb_ok|reflexivity].
  - intros e e' f f' I I' F F'.
    specialize (B f (proj2 (in_flat_map s_facets _ f) (ex_intro _ e (Logic.conj I F)))). rewrite forallb_forall in B. specialize (B f' (proj2 (in_flat_map s_facets _ f') (ex_intro _ e' (Logic.conj I' F')))).
    apply Bool.eqb_prop in B. rewrite <- sameSet_ok, <- B. symmetry. apply Z.eqb_eq.
  - intros e e' I I' H. specialize (C e I). rewrite forallb_forall in C. specialize (C e' I'). apply sameSet_ok in H. rewrite H, orb_false_r, Z.eqb_eq in C.
    exact (@indices_inj _ _ _ (gridOk_indices G) I I' C).
Qed.

Definition noIsolatedEdgeb (g : sgrid) : bool := forallb (fun i => existsb (fun e => smem i (map fst (s_facets e))) (g_elts g)) (zrange (g_n1 g)).
Lemma noIsolatedEdgeb_ok g : noIsolatedEdgeb g = true -> noIsolatedEdge g.
Proof.
  unfold noIsolatedEdgeb. rewrite forallb_forall. intros A i R. specialize (A i (proj2 (in_zrange _ _) R)). apply existsb_exists in A as (e & I & H). exists e. split; [exact I|]. now apply smem_In.
Qed.
Definition manifoldb (g : sgrid) : bool := forallb (fun i => Nat.leb (length (sidesOn g i)) 2) (zrange (g_n1 g)).
Lemma manifoldb_ok g : gridOk g -> manifoldb g = true -> manifold g.
Proof.
  unfold manifoldb. rewrite forallb_forall. intros G A i. destruct (sidesOn g i) as [|x l] eqn:Q; [cbn; lia|]. rewrite <- Q. apply Nat.leb_le, A, in_zrange.
  assert (I : In x (sidesOn g i)) by (rewrite Q; now left). unfold sidesOn in I. apply in_flat_map in I as (e & I & J). apply in_flat_map in J as (k & _ & J).
  destruct (nth_error (map fst (s_facets e)) k) as [f|] eqn:N; [|destruct J]. destruct (Z.eqb_spec f i) as [->|]; [|destruct J].
  destruct G as (_ & _ & G & _). apply (G e i I). unfold hasFacet. eapply nth_error_In; exact N.
Qed.

(** ---- the refinement with the sons numbered one element after the other and the edges as they are found ---- *)
Definition addEdge (l : list (list Z)) (e : list Z) : list (list Z) := if existsb (sameSet e) l then l else l ++ [e].
Definition sidesOf (vs : list Z) : list (list Z) := match vs with [a; b; c] => [[a; b]; [a; c]; [b; c]] | _ => [] end.
Definition edgeNumber (l : list (list Z)) (e : list Z) : Z :=
  fold_right (fun x n => if sameSet e x then 0 else n + 1) 0 l.
Definition refineGrid (g : sgrid) : sgrid :=
  let sons := flat_map (fun e => map (fun s => (6 * s_index e + Z.of_nat s, sonVertices g e s)) (seq 0 6)) (g_elts g) in
  let es := fold_left addEdge (flat_map (fun s => sidesOf (snd s)) sons) [] in
  SGrid (map (fun s => SElt (fst s) 0 (map (fun d => (edgeNumber es d, d)) (sidesOf (snd s))) (snd s)) sons)
        (Z.of_nat (length es)) (g_n2 g + g_n1 g + Z.of_nat (length (g_elts g))).
Definition zlist_eqb (l l' : list Z) : bool := if list_eq_dec Z.eq_dec l l' then true else false.
Definition refinementb (g fg : sgrid) (son : Z -> nat -> Z) : bool :=
  gridOkb fg && triangulationb fg && Nat.eqb (length (g_elts fg)) (6 * length (g_elts g)) &&
  forallb (fun e => forallb (fun s => existsb (fun t => (s_index t =? son (s_index e) s) && zlist_eqb (s_verts t) (sonVertices g e s)) (g_elts fg)) (seq 0 6)) (g_elts g).
Lemma refinementb_ok g fg son : sonNumbering (g_n0 g) son -> refinementb g fg son = true -> refinement g fg son.
Proof.
  intro S. unfold refinementb. rewrite !andb_true_iff, Nat.eqb_eq, forallb_forall. intros (((A & B) & C) & D). pose proof (gridOkb_ok A) as G. split; [exact G|]. split; [now apply triangulationb_ok|].
  split; [exact S|]. split; [exact C|]. intros e s I Hs. specialize (D e I). rewrite forallb_forall in D. specialize (D s (proj2 (in_seq 6 0 s) ltac:(lia))).
  apply existsb_exists in D as (t & It & H). rewrite andb_true_iff, Z.eqb_eq in H. destruct H as (H1 & H2). exists t. split; [exact It|]. split; [exact H1|]. unfold zlist_eqb in H2. destruct (list_eq_dec _ _ _); [assumption|discriminate].
Qed.

(** Three triangles round vertex 0: *)
Definition fan3 : sgrid := SGrid
  [ SElt 0 0 [(0, [0;1]); (1, [0;2]); (3, [1;2])] [0;1;2]; SElt 1 0 [(1, [0;2]); (2, [0;3]); (4, [2;3])] [0;2;3];
    SElt 2 0 [(2, [0;3]); (0, [0;1]); (5, [3;1])] [0;3;1] ] 6 4.
Definition fan3Fine : sgrid := Eval vm_compute in refineGrid fan3.
(** Two pairs of triangles that have vertex 0 in common: *)
Definition bowTie : sgrid := SGrid
  [ SElt 0 0 [(0, [0;1]); (1, [0;2]); (3, [1;2])] [0;1;2]; SElt 1 0 [(1, [0;2]); (2, [0;3]); (4, [2;3])] [0;2;3];
    SElt 2 0 [(5, [0;4]); (6, [0;5]); (8, [4;5])] [0;4;5]; SElt 3 0 [(6, [0;5]); (7, [0;6]); (9, [5;6])] [0;5;6] ] 10 7.
Definition bowTieFine : sgrid := Eval vm_compute in refineGrid bowTie.
(** Two triangles with opposite orientations: *)
Definition flipped : sgrid := SGrid
  [ SElt 0 0 [(0, [0;1]); (1, [0;2]); (2, [1;2])] [0;1;2]; SElt 1 0 [(2, [1;2]); (3, [1;3]); (4, [2;3])] [1;2;3] ] 5 4.
Definition flippedFine : sgrid := Eval vm_compute in refineGrid flipped.
