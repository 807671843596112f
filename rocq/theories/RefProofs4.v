(** The refined grid: arrays, tiles, bisected edges. *)
From Coq Require Import Reals ZArith List Bool Arith Lia Lra.
Import ListNotations.
From Verif Require Import Base BoxModel AccModel RefModel RefSpec RefProofs RefProofs2 RefProofs3.
Set Implicit Arguments.
Unset Strict Implicit.

Lemma in_combine_map {A B C} (f : A -> B) (l : list A) (r : list C) b c : In (b, c) (combine (map f l) r) -> exists a, b = f a /\ In (a, c) (combine l r).
Proof. revert r. induction l as [|a l IH]; intros [|x r] H; cbn in H; try destruct H. - injection H as <- <-. exists a. cbn. auto. - destruct (IH _ H) as (a' & E & I). exists a'. cbn. auto. Qed.
Lemma map_fst_combine {A B} (l : list A) (r : list B) : length l = length r -> map fst (combine l r) = l.
Proof. revert r. induction l as [|a l IH]; intros [|x r] H; try discriminate; [reflexivity|]. cbn. f_equal. apply IH. now injection H. Qed.
Lemma flat_map_len2 {A B C} (f : A -> list B) (h : A -> list C) l : (forall a, length (f a) = length (h a)) -> length (flat_map f l) = length (flat_map h l).
Proof. intros H. induction l as [|a l IH]; [reflexivity|]. cbn. rewrite !app_length, IH, H. reflexivity. Qed.

Section Final.
  Variable g : view.
  Hypothesis WF : wellFormed g.
  Hypothesis SF : surface g.
  Variable marks0 : list nat.
  Variable s : rstate.
  Hypothesis IV : inv g marks0 s.
  Hypothesis DONE : r_marked s = [].
  Let n := length (v_elements g).
  Let nv := length (v_vertices g).
  Let g' := rebuilt g s.
  Let V i := val (element g i) (refEdge g i) (r_list s i).
  Let mo i := modeOf (refEdge g i) (r_list s i).
  Let vs' := v_vertices g'.
  Lemma vs_old x : x < nv -> at3 vs' x = vertex g x.
  Proof. intros H. unfold at3, vs', g', rebuilt. cbn [v_vertices]. rewrite app_nth1 by exact H. reflexivity. Qed.
  Lemma vs_new k e : nth_error (r_new s) k = Some e -> at3 vs' (nv + k) = midpoint (vertex g (fst e)) (vertex g (snd e)).
  Proof.
    intros H. unfold at3, vs', g', rebuilt. cbn [v_vertices]. rewrite app_nth2 by (unfold nv; lia). unfold nv. replace (length (v_vertices g) + k - length (v_vertices g)) with k by lia.
    apply nth_error_nth. exact (map_nth_error _ _ _ H).
  Qed.
  Lemma vs_length : length vs' = nv + length (r_new s).
  Proof. unfold vs', g', rebuilt. cbn [v_vertices]. now rewrite app_length, map_length. Qed.
  Lemma midpoint_half p q : midpoint p q = half p q.
  Proof. unfold midpoint, half, vscale, vadd, px, py, pz. cbn [fst snd]. f_equal; [f_equal|]; field. Qed.
  Lemma midpoint_sym p q : midpoint p q = midpoint q p.
  Proof. unfold midpoint. f_equal; [f_equal|]; f_equal; apply Rplus_comm. Qed.
  Lemma midpoint_edge a b : midpoint (vertex g (fst (edgeOf a b))) (vertex g (snd (edgeOf a b))) = half (vertex g a) (vertex g b).
  Proof.
    rewrite <- midpoint_half. unfold edgeOf. cbn [fst snd]. destruct (Nat.le_ge_cases a b).
    - rewrite Nat.min_l, Nat.max_r by assumption. reflexivity.
    - rewrite Nat.min_r, Nat.max_l by assumption. apply midpoint_sym.
  Qed.
  Definition pos i a := at3 vs' (V i a).
  Lemma pos_mids i : i < n -> mids (pos i) (mo i).
  Proof.
    intros Li. assert (X : forall a, isCorner a = false -> present (mo i) a = true -> pos i a = half (pos i (fst (ends a))) (pos i (snd (ends a)))).
    { intros a Ca Pa. destruct (@mid_spec g WF marks0 s IV i a Li Ca Pa) as (k & K1 & K2). unfold pos. fold (V i) in K1, K2. fold nv in K2. rewrite K2, (vs_new K1), midpoint_edge.
      rewrite !vs_old; [reflexivity| |].
      - apply (@corner_lt g WF s i); [exact Li|]. destruct a; try discriminate; reflexivity.
      - apply (@corner_lt g WF s i); [exact Li|]. destruct a; try discriminate; reflexivity. }
    split; [|split]; intros P; [apply (X MM)|apply (X N1)|apply (X N2)]; auto.
  Qed.
  Lemma whole_inTriangle i x : i < n -> (inTriangle vs' (element g i) x <-> inT (pos i V0) (pos i V1) (pos i OP) x).
  Proof.
    intros Li. pose proof (@refEdge_bound g WF i Li) as LR. unfold pos, V, val.
    assert (E : inTriangle vs' (element g i) x <-> inT (at3 vs' (corner (element g i) 0)) (at3 vs' (corner (element g i) 1)) (at3 vs' (corner (element g i) 2)) x) by reflexivity. rewrite E.
    destruct (refEdge g i) as [|[|[|r]]]; [| | |lia]; cbn [localVertices fst snd Nat.sub]; [reflexivity| |].
    - rewrite inT_rot, inT_rot. reflexivity.
    - apply inT_rot.
  Qed.
  Lemma whole_normal i : i < n -> normal vs' (element g i) = nrm (pos i V0) (pos i V1) (pos i OP).
  Proof.
    intros Li. pose proof (@refEdge_bound g WF i Li) as LR. unfold pos, V, val.
    change (normal vs' (element g i)) with (nrm (at3 vs' (corner (element g i) 0)) (at3 vs' (corner (element g i) 1)) (at3 vs' (corner (element g i) 2))).
    destruct (refEdge g i) as [|[|[|r]]]; [| | |lia]; cbn [localVertices fst snd Nat.sub]; [reflexivity| |].
    - rewrite nrm_rot, nrm_rot. reflexivity.
    - apply nrm_rot.
  Qed.
  Lemma whole_shape i : i < n -> shapeOf vs' (element g i) (refEdge g i) = (pos i OP, pos i V0, pos i V1).
  Proof.
    intros Li. pose proof (@refEdge_bound g WF i Li) as LR. unfold pos, V, val. destruct (refEdge g i) as [|[|[|r]]]; [| | |lia]; reflexivity.
  Qed.
  Definition block i := childrenOf g s i.
  Lemma block_cases i : i < n -> (r_list s i (refEdge g i) = None /\ block i = [(element g i, refEdge g i)]) \/
    (exists b1 b2, mo i = Some (b1, b2) /\ r_list s i (refEdge g i) <> None /\ block i = combine (map (interp (element g i) (refEdge g i) (r_list s i)) (kidsOf (mo i))) (refsOf 0 (mo i))).
  Proof.
    intros Li. unfold block, childrenOf. destruct (r_list s i (refEdge g i)) as [v|] eqn:E.
    - right. unfold mo, modeOf. rewrite E. eexists. eexists. split; [reflexivity|]. split; [congruence|]. rewrite (children_refined (element g i) E). unfold modeOf. rewrite E. f_equal.
    - left. split; [reflexivity|]. unfold children. now rewrite E.
  Qed.
  Lemma block_ok i : i < n ->
    tiles vs' (map fst (block i)) (element g i) /\
    (forall k r, In (k, r) (block i) -> r < 3 /\ bisection (shapeOf vs' (element g i) (refEdge g i)) (shapeOf vs' k r)) /\
    (block i = [(element g i, refEdge g i)] \/ 2 <= length (block i) <= 4) /\ (r_list s i (refEdge g i) <> None <-> 2 <= length (block i)).
  Proof.
    intros Li. pose proof (@refEdge_bound g WF i Li) as LR. destruct (block_cases Li) as [[E B]|(b1 & b2 & M & E & B)].
    - rewrite B. split; [|split; [|split]].
      + split; [intros x; cbn; split; [intros H; eauto|intros (k & [<-|[]] & H); exact H]|]. exists [1%R]. split; [reflexivity|]. split; [unfold rsum; cbn; lra|].
        intros [|q] k a; cbn; [intros [= <-] [= <-]|destruct q; discriminate]. split; [lra|]. now rewrite vscale_one.
      + intros k r [H|[]]. injection H as <- <-. split; [exact LR|constructor].
      + now left.
      + cbn. split; [congruence|lia].
    - assert (L : length (kidsOf (mo i)) = length (refsOf 0 (mo i))) by (destruct (mo i) as [[[|] [|]]|]; reflexivity).
      pose proof (pos_mids Li) as PM. rewrite B. split; [|split; [|split]].
      + rewrite map_fst_combine by (rewrite map_length; exact L). split.
        * intros x. rewrite whole_inTriangle, (kids_cover x PM) by exact Li. split.
          -- intros (k & Hk & H). exists (interp (element g i) (refEdge g i) (r_list s i) k). split; [now apply in_map|]. destruct k as [[a b] c]. exact H.
          -- intros (t & Ht & H). apply in_map_iff in Ht. destruct Ht as (k & <- & Hk). exists k. split; [exact Hk|]. destruct k as [[a b] c]. exact H.
        * destruct (kids_shares PM) as (S1 & S2 & S3). exists (sharesOf (mo i)). split; [now rewrite map_length|]. split; [exact S2|].
          intros q t a Ht Ha. rewrite nth_error_map in Ht. destruct (nth_error (kidsOf (mo i)) q) as [k|] eqn:K; [|discriminate]. cbn in Ht. injection Ht as <-.
          destruct (S3 q k a K Ha) as [A1 A2]. split; [exact A1|]. rewrite whole_normal by exact Li. destruct k as [[x y] z]. exact A2.
      + intros k r H. apply in_combine_map in H. destruct H as (q & -> & H). split.
        * apply in_combine_r in H. rewrite M in H. destruct b1, b2; cbn in H; repeat destruct H as [<-|H]; try destruct H; lia.
        * rewrite whole_shape by exact Li. rewrite M in H, PM. pose proof (kids_bisect PM H) as Q. destruct q as [[x y] z]. destruct r as [|[|r]]; exact Q.
      + right. rewrite combine_length, map_length, <- L, Nat.min_id, M. destruct b1, b2; cbn; lia.
      + rewrite combine_length, map_length, <- L, Nat.min_id, M. split; [destruct b1, b2; cbn; lia|auto].
  Qed.
  Lemma elements_blocks : v_elements g' = map fst (flat_map block (seq 0 n)).
  Proof. unfold g', rebuilt. cbn [v_elements]. fold n. rewrite !flat_map_concat_map, concat_map, map_map. reflexivity. Qed.
  Lemma refs_blocks : v_ref g' = map snd (flat_map block (seq 0 n)).
  Proof. unfold g', rebuilt. cbn [v_ref]. fold n. rewrite !flat_map_concat_map, concat_map, map_map. reflexivity. Qed.
  Lemma kids_wf m k : In k (kidsOf m) -> NoDup (scorners k).
  Proof. destruct m as [[[|] [|]]|]; cbn; intros H; repeat destruct H as [<-|H]; try destruct H; cbn; repeat constructor; cbn; intuition discriminate. Qed.
  Lemma V_bound i a : i < n -> present (mo i) a = true -> V i a < length vs'.
  Proof.
    intros Li Pa. rewrite vs_length. destruct (isCorner a) eqn:C.
    - destruct (@corner_lt g WF s i a Li C) as [L _]. fold (V i) in L. fold nv in L. lia.
    - destruct (@mid_spec g WF marks0 s IV i a Li C Pa) as (k & K & E). fold (V i) in E. rewrite E. assert (k < length (r_new s)) by (apply nth_error_Some; congruence). unfold nv. lia.
  Qed.
  Lemma final_wf : wellFormed g'.
  Proof.
    split; [|split; [|split]].
    - unfold g', rebuilt. cbn [v_domains v_elements]. apply flat_map_len2. intros a. now rewrite !map_length.
    - now rewrite elements_blocks, refs_blocks, !map_length.
    - intros r Hr. rewrite refs_blocks in Hr. apply in_map_iff in Hr. destruct Hr as ([k r'] & <- & H). apply in_flat_map in H. destruct H as (i & Hi & H). apply in_seq in Hi.
      assert (Li : i < n) by lia. destruct (block_ok Li) as (_ & B & _). now apply (B k r').
    - intros t Ht. rewrite elements_blocks in Ht. apply in_map_iff in Ht. destruct Ht as ([k r'] & <- & H). apply in_flat_map in H. destruct H as (i & Hi & H). apply in_seq in Hi.
      assert (Li : i < n) by lia. cbn [fst]. destruct (block_cases Li) as [[E B]|(b1 & b2 & M & E & B)]; rewrite B in H.
      + destruct H as [H|[]]. injection H as <- <-. split; [now apply element_nodup|]. intros a Ha. fold vs'. rewrite vs_length. pose proof (@element_bound g WF i a Li Ha). unfold nv. lia.
      + apply in_combine_map in H. destruct H as (q & -> & H). apply in_combine_l in H.
        assert (CQ : corners (interp (element g i) (refEdge g i) (r_list s i) q) = map (V i) (scorners q)) by (destruct q as [[? ?] ?]; reflexivity). rewrite CQ. split.
        * pose proof (kids_wf H) as NQ. assert (PQ : forall a, In a (scorners q) -> present (mo i) a = true) by (intros a Ha; now apply (@kids_present _ q)). clear - NQ PQ WF SF IV DONE Li.
          induction (scorners q) as [|a l IH]; [constructor|]. inversion NQ as [|? ? N1 N2]; subst. cbn. constructor; [|apply IH; auto; intros; apply PQ; now right].
          intros C. apply in_map_iff in C. destruct C as (b & Eb & Hb). assert (b = a) by (apply (@val_inj g WF marks0 s IV i b a Li); [apply PQ; now right|apply PQ; now left|exact Eb]). subst b. contradiction.
        * intros x Hx. apply in_map_iff in Hx. destruct Hx as (a & <- & Ha). apply V_bound; [exact Li|]. now apply (@kids_present _ q).
  Qed.
  Lemma beyond a b : a <> b -> nv + length (r_new s) <= b -> sharing (v_elements g') [a; b] = 0.
  Proof.
    intros N L. rewrite sharing_has. assert (F : filter (has [a; b]) (v_elements g') = []); [|now rewrite F].
    assert (A : forall t, In t (v_elements g') -> has [a; b] t = false).
    { intros t Ht. destruct (has [a; b] t) eqn:H; [|reflexivity]. rewrite has_ok in H. destruct final_wf as (_ & _ & _ & W). destruct (W t Ht) as [_ W']. specialize (W' b (H b ltac:(cbn; auto))). fold vs' in W'. rewrite vs_length in W'. lia. }
    induction (v_elements g') as [|t l IH]; [reflexivity|]. cbn [filter]. rewrite A by now left. apply IH. intros u Hu. apply A. now right.
  Qed.
  Lemma new_edge k e : nth_error (r_new s) k = Some e -> exists i j, i < n /\ j < 3 /\ elementEdge (element g i) j = e.
  Proof. intros H. apply nth_error_In in H. now apply (inv_edges IV) in H. Qed.
  Lemma edge_ends t j : NoDup (corners t) -> j < 3 -> fst (elementEdge t j) <> snd (elementEdge t j) /\ edgeOf (fst (elementEdge t j)) (snd (elementEdge t j)) = elementEdge t j.
  Proof.
    destruct t as [[x y] z]. cbn. intros ND Hj. inversion ND as [|? ? M1 ND']; subst. inversion ND' as [|? ? M2 _]; subst. cbn in M1, M2.
    destruct j as [|[|[|j0]]]; [| | |lia]; unfold elementEdge, edgeOf; cbn; (split; [intros Q; intuition lia|f_equal; lia]).
  Qed.
  Lemma pair_case a b : a <> b -> (a < nv /\ b < nv /\ sharing (v_elements g') [a; b] = if edge_in_dec (edgeOf a b) (r_new s) then 0 else sharing (v_elements g) [a; b]) \/
    (exists k e, nth_error (r_new s) k = Some e /\ sharing (v_elements g') [a; b] = sharing (v_elements g) [fst e; snd e] /\ fst e <> snd e) \/
    sharing (v_elements g') [a; b] = 0 \/ sharing (v_elements g') [a; b] = 2.
  Proof.
    intros N. unfold g'.
    assert (X : forall x y, x <> y -> nv <= y -> (exists k e, nth_error (r_new s) k = Some e /\ sharing (v_elements (rebuilt g s)) [x; y] = sharing (v_elements g) [fst e; snd e] /\ fst e <> snd e) \/
        sharing (v_elements (rebuilt g s)) [x; y] = 0 \/ sharing (v_elements (rebuilt g s)) [x; y] = 2).
    { intros x y NXY Ly. destruct (Nat.lt_ge_cases y (nv + length (r_new s))) as [C|C]; [|right; left; now apply beyond].
      destruct (nth_error (r_new s) (y - nv)) as [e|] eqn:E; [|apply nth_error_None in E; lia].
      destruct (Nat.lt_ge_cases x nv) as [D|D]; [|right; apply (inner_edge WF SF IV NXY Ly); lia].
      destruct (Nat.eq_dec x (fst e)) as [F|F]; [|destruct (Nat.eq_dec x (snd e)) as [G|G]].
      1,2: left; exists (y - nv), e; split; [exact E|]; split; [replace y with (nv + (y - nv)) by lia; apply (half_edge WF IV DONE D E); auto|].
      1,2: destruct (new_edge E) as (i & j & Li & Lj & <-); apply edge_ends; [now apply element_nodup|exact Lj].
      right. apply (inner_edge WF SF IV NXY Ly). intros _ [[O _]|(k & e' & K1 & K2 & K3)]; [fold nv in O; lia|].
      assert (k = y - nv) by (unfold nv in *; lia). subst k. rewrite E in K2. assert (e = e') by congruence. subst e'. tauto. }
    destruct (Nat.lt_ge_cases b nv) as [Lb|Lb]; [|right; now apply X].
    destruct (Nat.lt_ge_cases a nv) as [La|La]; [|right; rewrite sharing_swap; apply X; [congruence|exact La]].
    left. split; [exact La|]. split; [exact Lb|]. apply (old_pair WF IV DONE N La Lb).
  Qed.
  Lemma final_surface : surface g' /\ (closedSurface g -> closedSurface g').
  Proof.
    assert (S : surface g').
    { split; [|apply (new_triple WF SF IV)]. intros a b N. destruct (pair_case N) as [(_ & _ & ->)|[(k & e & _ & -> & NE)|[->| ->]]]; try lia.
      - destruct (edge_in_dec _ _); [lia|]. now apply SF.
      - now apply SF. }
    split; [exact S|]. intros [_ C]. split; [exact S|]. intros a b N. destruct (pair_case N) as [(_ & _ & ->)|[(k & e & _ & -> & NE)|H]]; auto.
    destruct (edge_in_dec _ _); auto.
  Qed.
End Final.
