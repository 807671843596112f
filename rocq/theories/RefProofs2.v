(** The combinatorics of the refined grid. *)
From Coq Require Import Reals ZArith List Bool Arith Lia.
Import ListNotations.
From Verif Require Import Base BoxModel AccModel RefModel RefSpec RefProofs.
Set Implicit Arguments.
Unset Strict Implicit.

(** ---- the children of an element, symbolically ---- *)
Inductive sym := V0 | V1 | OP | MM | N1 | N2.
Definition sym_dec (a b : sym) : {a = b} + {a <> b}.
Proof. decide equality. Defined.
Definition symEqb a b : bool := if sym_dec a b then true else false.
Lemma symEqb_ok a b : symEqb a b = true <-> a = b.
Proof. unfold symEqb. destruct (sym_dec a b); split; congruence. Qed.
Definition stri := (sym * sym * sym)%type.
Definition scorners (t : stri) : list sym := let '(a, b, c) := t in [a; b; c].
Definition mode := option (bool * bool).
Definition kidsOf (m : mode) : list stri :=
  match m with
  | None => [(V0, V1, OP)]
  | Some (false, false) => [(MM, OP, V0); (MM, V1, OP)]
  | Some (true, false) => [(V0, MM, N1); (N1, MM, OP); (OP, MM, V1)]
  | Some (false, true) => [(V1, N2, MM); (N2, OP, MM); (OP, V0, MM)]
  | Some (true, true) => [(V0, MM, N1); (N1, MM, OP); (V1, N2, MM); (N2, OP, MM)]
  end.
Definition present (m : mode) (a : sym) : bool :=
  match a, m with MM, None | N1, None | N2, None => false | N1, Some (b, _) => b | N2, Some (_, b) => b | _, _ => true end.
Definition isCorner (a : sym) : bool := match a with V0 | V1 | OP => true | _ => false end.
Definition ownS (a : sym) : list sym := match a with MM => [V0; V1] | N1 => [OP; V0] | N2 => [V1; OP] | _ => [a] end.
Definition hasS (l : list sym) (t : stri) : bool := forallb (fun a => existsb (symEqb a) (scorners t)) l.
Definition countS (m : mode) (l : list sym) : nat := length (filter (hasS l) (kidsOf m)).
Definition covers (l : list sym) : bool := forallb (fun c => existsb (symEqb c) (flat_map ownS l)) [V0; V1; OP].
(** the midpoint of the edge of two corners *)
Definition midS (a b : sym) : sym := match a, b with V0, V1 | V1, V0 => MM | OP, V0 | V0, OP => N1 | _, _ => N2 end.
Lemma kids_present m k a : In k (kidsOf m) -> In a (scorners k) -> present m a = true.
Proof. destruct m as [[[|] [|]]|]; cbn; intros Hk Ha; repeat destruct Hk as [<-|Hk]; try destruct Hk; cbn in Ha; repeat destruct Ha as [<-|Ha]; try destruct Ha; reflexivity. Qed.
Lemma pair_table m a b : present m a = true -> present m b = true -> a <> b ->
  (covers [a; b] = true -> countS m [a; b] = 0 \/ countS m [a; b] = 2) /\
  (isCorner a = true -> isCorner b = true -> countS m [a; b] = if present m (midS a b) then 0 else 1) /\
  (isCorner a = true -> isCorner b = false -> In a (ownS b) -> countS m [a; b] = 1) /\
  (isCorner a = true -> isCorner b = false -> ~ In a (ownS b) -> covers [a; b] = true) /\
  (isCorner a = false -> isCorner b = false -> covers [a; b] = true).
Proof.
  destruct m as [[[|] [|]]|], a, b; cbn; intros P1 P2 N; try discriminate; try congruence;
  (split; [vm_compute; intros; auto; discriminate|]); (split; [intros; try discriminate; reflexivity|]); (split; [intros ? ? I; try discriminate; try reflexivity; exfalso; cbn in I; intuition discriminate|]);
  (split; [intros ? ? I; try discriminate; try reflexivity; exfalso; apply I; cbn; auto|]); intros; try discriminate; reflexivity.
Qed.
Lemma triple_table m a b c : present m a = true -> present m b = true -> present m c = true -> a <> b -> a <> c -> b <> c ->
  countS m [a; b; c] <= 1 /\ (countS m [a; b; c] <> 0 -> covers [a; b; c] = true).
Proof.
  assert (A : forallb (fun m => forallb (fun a => forallb (fun b => forallb (fun c =>
     implb (present m a && present m b && present m c && negb (symEqb a b) && negb (symEqb a c) && negb (symEqb b c))
           ((countS m [a; b; c] <=? 1) && ((countS m [a; b; c] =? 0) || covers [a; b; c])))
     [V0; V1; OP; MM; N1; N2]) [V0; V1; OP; MM; N1; N2]) [V0; V1; OP; MM; N1; N2]) [None; Some (true, true); Some (true, false); Some (false, true); Some (false, false)] = true) by (vm_compute; reflexivity).
  intros P1 P2 P3 D1 D2 D3.
  assert (IM : In m [None; Some (true, true); Some (true, false); Some (false, true); Some (false, false)]) by (destruct m as [[[|] [|]]|]; cbn; auto 10).
  assert (IS : forall x : sym, In x [V0; V1; OP; MM; N1; N2]) by (intros []; cbn; auto 10).
  rewrite forallb_forall in A. specialize (A m IM). rewrite forallb_forall in A. specialize (A a (IS a)). rewrite forallb_forall in A. specialize (A b (IS b)). rewrite forallb_forall in A. specialize (A c (IS c)).
  assert (NE : forall x y, x <> y -> symEqb x y = false) by (intros x y N; unfold symEqb; destruct (sym_dec x y); [contradiction|reflexivity]).
  rewrite P1, P2, P3, !NE in A by assumption. cbn [andb negb implb] in A. apply andb_true_iff in A. destruct A as [A1 A2]. apply Nat.leb_le in A1. split; [exact A1|].
  intros Z. apply orb_true_iff in A2. destruct A2 as [A2|A2]; [apply Nat.eqb_eq in A2; contradiction|exact A2].
Qed.

(** ---- interpretation ---- *)
Section Children.
  Variables (t : tri) (ref : nat) (l : nat -> option nat).
  Definition orZero (o : option nat) : nat := match o with Some v => v | None => 0 end.
  Definition val (a : sym) : nat :=
    match a with
    | V0 => corner t (fst (localVertices ref)) | V1 => corner t (snd (localVertices ref)) | OP => corner t (2 - ref)
    | MM => orZero (l ref) | N1 => orZero (l ((ref + 1) mod 3)) | N2 => orZero (l ((ref + 2) mod 3))
    end.
  Definition interp (k : stri) : tri := let '(a, b, c) := k in (val a, val b, val c).
  Definition modeOf : mode := match l ref with None => None | Some _ => Some (negb (isNone (l ((ref + 1) mod 3))), negb (isNone (l ((ref + 2) mod 3)))) end.
  Definition refsOf (m : mode) : list nat :=
    match m with None => [ref] | Some (false, false) => [2; 2] | Some (true, false) => [0; 2; 1] | Some (false, true) => [1; 2; 0] | Some (true, true) => [0; 2; 1; 2] end.
  Lemma children_refined v : l ref = Some v -> children t ref l = combine (map interp (kidsOf modeOf)) (refsOf modeOf).
  Proof.
    intros E. unfold children, modeOf. rewrite E.
    destruct (l ((ref + 1) mod 3)) as [a|] eqn:E1, (l ((ref + 2) mod 3)) as [b|] eqn:E2; cbn [isNone negb andb app kidsOf map interp combine refsOf val]; rewrite ?E, ?E1, ?E2; reflexivity.
  Qed.
  Lemma corners_val a : ref < 3 -> (In a (corners t) <-> a = val V0 \/ a = val V1 \/ a = val OP).
  Proof. intros H. unfold val. destruct t as [[x y] z], ref as [|[|[|r]]]; [| | |lia]; cbn; intuition congruence. Qed.
  Lemma has_ext ls (t1 t2 : tri) : (forall a, In a (corners t1) <-> In a (corners t2)) -> has ls t1 = has ls t2.
  Proof. intros E. apply eq_true_iff_eq. rewrite !has_ok. split; intros H a Ha; apply E; auto. Qed.
  Lemma count_children ls : ref < 3 -> length (filter (has ls) (map fst (children t ref l))) = length (filter (has ls) (map interp (kidsOf modeOf))).
  Proof.
    intros HR. destruct (l ref) as [v|] eqn:E.
    - rewrite (children_refined E). f_equal. f_equal.
      assert (L : length (kidsOf modeOf) = length (refsOf modeOf)) by (destruct modeOf as [[[|] [|]]|]; reflexivity).
      clear E. revert L. generalize (refsOf modeOf). induction (kidsOf modeOf) as [|k ks IH]; intros [|r rs] L; try discriminate; [reflexivity|]. cbn [map combine fst]. f_equal. apply IH. now injection L.
    - unfold children, modeOf. rewrite E. cbn [map fst kidsOf interp filter].
      rewrite (@has_ext ls t (val V0, val V1, val OP)) by (intros a; rewrite corners_val by exact HR; cbn; intuition congruence). now destruct (has ls _).
  Qed.
End Children.

Lemma list_sum_map_ext (f h : nat -> nat) l : (forall i, In i l -> f i = h i) -> list_sum (map f l) = list_sum (map h l).
Proof. intros H. f_equal. apply map_ext_in. exact H. Qed.
Lemma filter_flat_map {A B} (p : B -> bool) (f : A -> list B) l : length (filter p (flat_map f l)) = list_sum (map (fun a => length (filter p (f a))) l).
Proof. induction l as [|a l IH]; [reflexivity|]. cbn [flat_map map list_sum fold_right]. rewrite filter_app, app_length, IH. reflexivity. Qed.
Lemma sum_indicator (p : nat -> bool) l : list_sum (map (fun i => if p i then 1 else 0) l) = length (filter p l).
Proof. induction l as [|a l IH]; [reflexivity|]. cbn [map filter]. change (list_sum ?x) with (list_sum x) in *. cbn [list_sum fold_right] in *. destruct (p a); cbn [length]; unfold list_sum in *; lia. Qed.
Lemma sum_single (f : nat -> nat) l i : NoDup l -> In i l -> (forall j, In j l -> f j <> 0 -> j = i) -> list_sum (map f l) = f i.
Proof.
  induction l as [|a l IH]; intros ND Hi H; [destruct Hi|]. inversion ND as [|? ? N ND']; subst. unfold list_sum in *. cbn [map fold_right]. destruct Hi as [->|Hi].
  - assert (Z : fold_right Init.Nat.add 0 (map f l) = 0).
    { clear IH. assert (A : forall j, In j l -> f j = 0). { intros j Hj. destruct (Nat.eq_dec (f j) 0) as [E|E]; [exact E|]. rewrite (H j (or_intror Hj) E) in Hj. contradiction. }
      clear - A. induction l as [|b l IH]; [reflexivity|]. cbn. rewrite (A b) by now left. apply IH. intros j Hj. apply A. now right. }
    rewrite Z. apply Nat.add_0_r.
  - rewrite (IH ND' Hi) by (intros j Hj; apply H; now right). destruct (Nat.eq_dec (f a) 0) as [->|E]; [reflexivity|]. rewrite (H a (or_introl eq_refl) E) in N. contradiction.
Qed.
Lemma sum_zero (f : nat -> nat) l : (forall j, In j l -> f j = 0) -> list_sum (map f l) = 0.
Proof. unfold list_sum. induction l as [|b l IH]; intros A; [reflexivity|]. cbn. rewrite (A b) by now left. apply IH. intros j Hj. apply A. now right. Qed.

Lemma has_swap a b t : has [a; b] t = has [b; a] t.
Proof. apply eq_true_iff_eq. rewrite !has_ok. cbn. intuition. Qed.
Lemma sharing_swap els a b : sharing els [a; b] = sharing els [b; a].
Proof. rewrite !sharing_has. f_equal. apply filter_ext. intros t. apply has_swap. Qed.
Section Refined.
  Variable g : view.
  Hypothesis WF : wellFormed g.
  Hypothesis SF : surface g.
  Variable marks0 : list nat.
  Variable s : rstate.
  Hypothesis IV : inv g marks0 s.
  Hypothesis DONE : r_marked s = [].
  Let n := length (v_elements g).
  Let nv := length (v_vertices g).
  Let elt i := element g i.
  Let rf i := refEdge g i.
  Let rl i := r_list s i.
  Let V i := val (elt i) (rf i) (rl i).
  Let mo i := modeOf (rf i) (rl i).
  (** no edge of an element without its reference edge *)
  Lemma closed_all i j : i < n -> j < 3 -> rl i j <> None -> rl i (rf i) <> None.
  Proof. intros Li Lj H. destruct (inv_closed IV Li Lj H) as [C|C]; [exact C|]. rewrite DONE in C. destruct C. Qed.
  Lemma corner_lt i a : i < n -> isCorner a = true -> V i a < nv /\ In (V i a) (corners (elt i)).
  Proof.
    intros Li Ca. assert (I : In (V i a) (corners (elt i))). { apply (@corners_val _ (rf i) (rl i)); [now apply refEdge_bound|]. destruct a; try discriminate; unfold V; auto. }
    split; [|exact I]. now apply (@element_bound g WF i).
  Qed.
  Lemma corner_inj i a b : i < n -> isCorner a = true -> isCorner b = true -> V i a = V i b -> a = b.
  Proof.
    intros Li Ca Cb. pose proof (@element_nodup g WF i Li) as ND. pose proof (@refEdge_bound g WF i Li) as LR. unfold V, val, elt, rf.
    destruct (element g i) as [[x y] z]. cbn in ND. inversion ND as [|? ? M1 ND']; subst. inversion ND' as [|? ? M2 _]; subst. cbn in M1, M2.
    destruct a; try discriminate; destruct b; try discriminate; try reflexivity; destruct (refEdge g i) as [|[|[|r]]]; try lia; cbn; intros E; subst; exfalso; tauto.
  Qed.
  Definition ends (a : sym) : sym * sym := match a with MM => (V0, V1) | N1 => (OP, V0) | _ => (V1, OP) end.
  Lemma mid_spec i a : i < n -> isCorner a = false -> present (mo i) a = true ->
    exists k, nth_error (r_new s) k = Some (edgeOf (V i (fst (ends a))) (V i (snd (ends a)))) /\ V i a = nv + k.
  Proof.
    intros Li Ca P. pose proof (@refEdge_bound g WF i Li) as LR. fold (rf i) in LR.
    assert (X : forall j, j < 3 -> rl i j <> None -> exists k, nth_error (r_new s) k = Some (elementEdge (elt i) j) /\ orZero (rl i j) = nv + k).
    { intros j Lj H. destruct (rl i j) as [v|] eqn:E; [|congruence]. destruct (proj1 (inv_list IV v Li Lj) E) as (k & E' & ->). exists k. auto. }
    unfold mo, modeOf in P. destruct (rl i (rf i)) as [v|] eqn:E; [|destruct a; discriminate]. unfold V. destruct a; try discriminate; cbn [present] in P.
    - destruct (X (rf i) LR) as (k & K1 & K2); [congruence|]. exists k. split; [|exact K2]. rewrite K1. f_equal. unfold val, elementEdge. cbn [ends fst snd].
      destruct (rf i) as [|[|[|r]]]; [| | |lia]; cbn; first [reflexivity|apply edgeOf_sym].
    - apply negb_true_iff in P. destruct (X ((rf i + 1) mod 3)) as (k & K1 & K2); [apply Nat.mod_upper_bound; lia|intros Q; rewrite Q in P; discriminate|]. exists k. split; [|exact K2]. rewrite K1. f_equal. unfold val, elementEdge. cbn [ends fst snd].
      destruct (rf i) as [|[|[|r]]]; [| | |lia]; cbn; first [reflexivity|apply edgeOf_sym].
    - apply negb_true_iff in P. destruct (X ((rf i + 2) mod 3)) as (k & K1 & K2); [apply Nat.mod_upper_bound; lia|intros Q; rewrite Q in P; discriminate|]. exists k. split; [|exact K2]. rewrite K1. f_equal. unfold val, elementEdge. cbn [ends fst snd].
      destruct (rf i) as [|[|[|r]]]; [| | |lia]; cbn; first [reflexivity|apply edgeOf_sym].
  Qed.
  Lemma val_inj i a b : i < n -> present (mo i) a = true -> present (mo i) b = true -> V i a = V i b -> a = b.
  Proof.
    intros Li Pa Pb E. destruct (isCorner a) eqn:Ca, (isCorner b) eqn:Cb.
    - now apply (@corner_inj i).
    - destruct (corner_lt Li Ca) as [L _]. destruct (mid_spec Li Cb Pb) as (k & _ & K). lia.
    - destruct (corner_lt Li Cb) as [L _]. destruct (mid_spec Li Ca Pa) as (k & _ & K). lia.
    - destruct (mid_spec Li Ca Pa) as (k & K1 & K2). destruct (mid_spec Li Cb Pb) as (k' & K1' & K2'). assert (k = k') by lia. subst k'. rewrite K1 in K1'.
      assert (EE : edgeOf (V i (fst (ends a))) (V i (snd (ends a))) = edgeOf (V i (fst (ends b))) (V i (snd (ends b)))) by congruence.
      apply edgeOf_inj in EE. destruct a; try discriminate; destruct b; try discriminate; try reflexivity; exfalso; cbn [ends fst snd] in EE;
      destruct EE as [[E1 E2]|[E1 E2]]; apply (@corner_inj i) in E1; try reflexivity; try assumption; try discriminate; apply (@corner_inj i) in E2; try reflexivity; try assumption; try discriminate.
  Qed.
  (** the old vertices a vertex stands for *)
  Definition ownR (x y : nat) : Prop := (x < nv /\ y = x) \/ exists k e, x = nv + k /\ nth_error (r_new s) k = Some e /\ (y = fst e \/ y = snd e).
  Lemma edgeOf_ends a b y : (y = fst (edgeOf a b) \/ y = snd (edgeOf a b)) <-> (y = a \/ y = b).
  Proof. unfold edgeOf. cbn. lia. Qed.
  Lemma own_spec i a y : i < n -> present (mo i) a = true -> (ownR (V i a) y <-> exists c, In c (ownS a) /\ y = V i c).
  Proof.
    intros Li Pa. destruct (isCorner a) eqn:Ca.
    - destruct (corner_lt Li Ca) as [L _]. assert (O : ownS a = [a]) by (destruct a; try discriminate; reflexivity). rewrite O. split.
      + intros [[_ ->]|(k & e & E & _)]; [exists a; cbn; auto|lia].
      + intros (c & [<-|[]] & ->). now left.
    - destruct (mid_spec Li Ca Pa) as (k & K1 & K2). assert (O : ownS a = [fst (ends a); snd (ends a)]) by (destruct a; try discriminate; reflexivity). rewrite O. split.
      + intros [[L _]|(k' & e & E & K1' & Y)]; [lia|]. assert (k = k') by lia. subst k'. assert (EE : e = edgeOf (V i (fst (ends a))) (V i (snd (ends a)))) by congruence. rewrite EE in Y. apply (proj1 (edgeOf_ends _ _ _)) in Y.
        destruct Y as [->| ->]; [exists (fst (ends a))|exists (snd (ends a))]; (split; [cbn; auto|reflexivity]).
      + intros (c & Hc & ->). right. exists k, (edgeOf (V i (fst (ends a))) (V i (snd (ends a)))). split; [exact K2|]. split; [exact K1|]. apply edgeOf_ends. destruct Hc as [<-|[<-|[]]]; auto.
  Qed.
  (** ---- counting the children having given vertices ---- *)
  Definition cnt (i : nat) (ls : list nat) : nat := length (filter (has ls) (map fst (childrenOf g s i))).
  Lemma cnt_eq i ls : i < n -> cnt i ls = length (filter (has ls) (map (interp (elt i) (rf i) (rl i)) (kidsOf (mo i)))).
  Proof. intros Li. apply count_children. now apply refEdge_bound. Qed.
  Lemma interp_corners i k : corners (interp (elt i) (rf i) (rl i) k) = map (V i) (scorners k).
  Proof. destruct k as [[a b] c]. reflexivity. Qed.
  Lemma cnt_sym i as_ : i < n -> (forall a, In a as_ -> present (mo i) a = true) -> cnt i (map (V i) as_) = countS (mo i) as_.
  Proof.
    intros Li P. rewrite cnt_eq by exact Li. unfold countS.
    assert (E : forall ks, (forall k, In k ks -> In k (kidsOf (mo i))) -> length (filter (has (map (V i) as_)) (map (interp (elt i) (rf i) (rl i)) ks)) = length (filter (hasS as_) ks)).
    { induction ks as [|k ks IH]; intros Hk; [reflexivity|]. cbn [map filter].
      assert (H : has (map (V i) as_) (interp (elt i) (rf i) (rl i) k) = hasS as_ k).
      { apply eq_true_iff_eq. rewrite has_ok. unfold hasS. rewrite forallb_forall. split.
        - intros H a Ha. apply existsb_exists. specialize (H (V i a) (in_map _ _ _ Ha)). rewrite interp_corners in H. apply in_map_iff in H. destruct H as (b & E & Hb). exists b. split; [exact Hb|].
          apply symEqb_ok. symmetry. apply (@val_inj i); auto. apply (@kids_present _ k); [apply Hk; now left|exact Hb].
        - intros H x Hx. apply in_map_iff in Hx. destruct Hx as (a & <- & Ha). specialize (H a Ha). apply existsb_exists in H. destruct H as (b & Hb & E). apply symEqb_ok in E. subst b. rewrite interp_corners. now apply in_map. }
      rewrite H. destruct (hasS as_ k); cbn [length]; rewrite IH; auto; intros; apply Hk; now right. }
    apply E. auto.
  Qed.
  Lemma cnt_present i ls x : i < n -> In x ls -> cnt i ls <> 0 -> exists a, present (mo i) a = true /\ V i a = x.
  Proof.
    intros Li Hx C. rewrite cnt_eq in C by exact Li. destruct (filter _ _) as [|k ks] eqn:F; [cbn in C; lia|]. assert (I : In k (k :: ks)) by now left. rewrite <- F in I. apply filter_In in I.
    destruct I as [I H]. apply in_map_iff in I. destruct I as (q & <- & I). apply (proj1 (has_ok _ _)) with (a := x) in H; [|exact Hx]. rewrite interp_corners in H. apply in_map_iff in H. destruct H as (a & <- & Ha).
    exists a. split; [|reflexivity]. now apply (@kids_present _ q).
  Qed.
  Lemma sharing_sum ls : sharing (v_elements (rebuilt g s)) ls = list_sum (map (fun i => cnt i ls) (seq 0 n)).
  Proof. rewrite sharing_has. cbn [rebuilt v_elements]. now rewrite filter_flat_map. Qed.
  (** vertices standing for three corners belong to one element *)
  Lemma only_one i j : i < n -> j < n -> (forall c, In c (corners (elt i)) -> In c (corners (elt j))) -> i = j.
  Proof.
    intros Li Lj H. destruct SF as [_ S3]. pose proof (@element_nodup g WF i Li) as ND. fold (elt i) in ND. destruct (elt i) as [[a b] c] eqn:E. cbn in ND, H.
    specialize (S3 a b c ND). rewrite sharing_has, (filter_seq_nth (has [a; b; c]) (0, 0, 0)) in S3.
    assert (I1 : In i (filter (fun k => has [a; b; c] (nth k (v_elements g) (0, 0, 0))) (seq 0 (length (v_elements g))))).
    { apply filter_In. split; [apply in_seq; unfold n in *; lia|]. apply has_ok. change (nth i (v_elements g) (0, 0, 0)) with (elt i). rewrite E. cbn. auto. }
    assert (I2 : In j (filter (fun k => has [a; b; c] (nth k (v_elements g) (0, 0, 0))) (seq 0 (length (v_elements g))))).
    { apply filter_In. split; [apply in_seq; unfold n in *; lia|]. apply has_ok. exact H. }
    destruct (filter _ _) as [|x [|y q]]; [destruct I1| |cbn in S3; lia]. destruct I1 as [<-|[]], I2 as [<-|[]]. reflexivity.
  Qed.
  Lemma cover_corners i as_ : i < n -> (forall a, In a as_ -> present (mo i) a = true) -> covers as_ = true ->
    forall c, In c (corners (elt i)) -> exists x, In x (map (V i) as_) /\ ownR x c.
  Proof.
    intros Li P C c Hc. apply (@corners_val _ (rf i) (rl i)) in Hc; [|now apply refEdge_bound]. fold (V i) in Hc. unfold covers in C. rewrite forallb_forall in C.
    assert (D : exists d, In d [V0; V1; OP] /\ c = V i d) by (destruct Hc as [->|[->| ->]]; eexists; (split; [|reflexivity]); cbn; auto). destruct D as (d & Hd & ->).
    specialize (C d Hd). apply existsb_exists in C. destruct C as (d' & I & E). apply symEqb_ok in E. subst d'. apply in_flat_map in I. destruct I as (a & Ha & I).
    exists (V i a). split; [now apply in_map|]. apply own_spec; auto. exists d. auto.
  Qed.
  Lemma cnt_own j ls x c : j < n -> cnt j ls <> 0 -> In x ls -> ownR x c -> In c (corners (elt j)).
  Proof.
    intros Lj C Hx O. destruct (cnt_present Lj Hx C) as (a & Pa & <-). apply own_spec in O; auto. destruct O as (d & Hd & ->).
    apply corner_lt; [exact Lj|]. destruct a; cbn in Hd; repeat destruct Hd as [<-|Hd]; try destruct Hd; reflexivity.
  Qed.
  (** the sum, when all children concerned lie in one element *)
  Lemma sum_covered ls i as_ : i < n -> ls = map (V i) as_ -> (forall a, In a as_ -> present (mo i) a = true) -> covers as_ = true ->
    list_sum (map (fun i => cnt i ls) (seq 0 n)) = cnt i ls.
  Proof.
    intros Li E P C. apply (@sum_single (fun i => cnt i ls)); [apply seq_NoDup|apply in_seq; lia|].
    intros j Hj NZ. apply in_seq in Hj. symmetry. apply only_one; [exact Li|lia|]. intros c Hc. destruct (cover_corners Li P C Hc) as (x & Hx & O). rewrite <- E in Hx. apply (@cnt_own j ls x); auto. lia.
  Qed.
  Lemma sharing_old ls : sharing (v_elements g) ls = list_sum (map (fun i => if has ls (elt i) then 1 else 0) (seq 0 n)).
  Proof. rewrite sharing_has, (filter_seq_nth (has ls) (0, 0, 0)), sum_indicator. reflexivity. Qed.
  (** old vertices *)
  Lemma corner_of i x : i < n -> In x (corners (elt i)) -> exists a, isCorner a = true /\ present (mo i) a = true /\ V i a = x.
  Proof.
    intros Li H. apply (@corners_val _ (rf i) (rl i)) in H; [|now apply refEdge_bound]. fold (V i) in H. destruct H as [->|[->| ->]]; eexists; (split; [|split; [|reflexivity]]); try reflexivity; destruct (mo i) as [[? ?]|]; reflexivity.
  Qed.
  Lemma mid_present i a b : i < n -> isCorner a = true -> isCorner b = true -> a <> b ->
    (present (mo i) (midS a b) = true <-> In (edgeOf (V i a) (V i b)) (r_new s)).
  Proof.
    intros Li Ca Cb N. assert (M : isCorner (midS a b) = false) by (destruct a, b; try discriminate; try congruence; reflexivity).
    assert (E : edgeOf (V i (fst (ends (midS a b)))) (V i (snd (ends (midS a b)))) = edgeOf (V i a) (V i b)) by (destruct a, b; try discriminate; try congruence; try reflexivity; apply edgeOf_sym).
    split.
    - intros P. destruct (mid_spec Li M P) as (k & K & _). rewrite E in K. now apply nth_error_In in K.
    - intros I. pose proof (@refEdge_bound g WF i Li) as LR. fold (rf i) in LR.
      assert (X : forall j, j < 3 -> elementEdge (elt i) j = edgeOf (V i a) (V i b) -> rl i j <> None).
      { intros j Lj K C. apply (@none_iff g marks0 s i j IV Li Lj) in C. apply C. unfold keyOf. fold (elt i). now rewrite K. }
      assert (Y : forall j, j < 3 -> elementEdge (elt i) j = edgeOf (V i a) (V i b) -> rl i (rf i) <> None) by (intros j Lj K; apply (@closed_all i j); auto).
      assert (J : exists j, j < 3 /\ elementEdge (elt i) j = edgeOf (V i a) (V i b) /\ match midS a b with MM => j = rf i | N1 => j = (rf i + 1) mod 3 | _ => j = (rf i + 2) mod 3 end).
      { destruct (midS a b) eqn:Q; cbn in M; try discriminate; rewrite <- E; cbn [ends fst snd].
        - exists (rf i). split; [exact LR|]. split; [|reflexivity]. unfold V, val, elementEdge. destruct (rf i) as [|[|[|r]]]; [| | |lia]; cbn; first [reflexivity|apply edgeOf_sym].
        - exists ((rf i + 1) mod 3). split; [apply Nat.mod_upper_bound; lia|]. split; [|reflexivity]. unfold V, val, elementEdge. destruct (rf i) as [|[|[|r]]]; [| | |lia]; cbn; first [reflexivity|apply edgeOf_sym].
        - exists ((rf i + 2) mod 3). split; [apply Nat.mod_upper_bound; lia|]. split; [|reflexivity]. unfold V, val, elementEdge. destruct (rf i) as [|[|[|r]]]; [| | |lia]; cbn; first [reflexivity|apply edgeOf_sym]. }
      destruct J as (j & Lj & K & Q). pose proof (X j Lj K) as X1. pose proof (Y j Lj K) as Y1. unfold mo, modeOf. destruct (rl i (rf i)); [|congruence].
      destruct (midS a b); try discriminate; subst j; cbn [present]; try reflexivity; destruct (rl i _); (reflexivity || congruence).
  Qed.
  Lemma edge_in_dec (e : edge) l : {In e l} + {~ In e l}.
  Proof. apply in_dec. decide equality; apply Nat.eq_dec. Qed.
  Lemma old_pair a b : a <> b -> a < nv -> b < nv ->
    sharing (v_elements (rebuilt g s)) [a; b] = if edge_in_dec (edgeOf a b) (r_new s) then 0 else sharing (v_elements g) [a; b].
  Proof.
    intros N La Lb. rewrite sharing_sum.
    assert (C : forall i, i < n -> cnt i [a; b] = if has [a; b] (elt i) then (if edge_in_dec (edgeOf a b) (r_new s) then 0 else 1) else 0).
    { intros i Li. destruct (has [a; b] (elt i)) eqn:H.
      - rewrite has_ok in H. destruct (corner_of Li (H a (or_introl eq_refl))) as (x & Cx & Px & <-). destruct (corner_of Li (H b (or_intror (or_introl eq_refl)))) as (y & Cy & Py & <-).
        assert (NXY : x <> y) by congruence. change [V i x; V i y] with (map (V i) [x; y]). rewrite cnt_sym by (exact Li || (intros c [<-|[<-|[]]]; assumption)).
        destruct (pair_table Px Py NXY) as (_ & T & _). rewrite T by assumption. pose proof (mid_present Li Cx Cy NXY) as MP. destruct (present (mo i) (midS x y)), (edge_in_dec _ _); try reflexivity; exfalso; intuition congruence.
      - destruct (Nat.eq_dec (cnt i [a; b]) 0) as [Z|Z]; [exact Z|]. exfalso. assert (H' : has [a; b] (elt i) = true); [|congruence]. apply has_ok.
        intros c Hc. apply (@cnt_own i [a; b] c); auto. left. split; [|reflexivity]. cbn in Hc. intuition congruence. }
    rewrite (@list_sum_map_ext (fun i => cnt i [a; b]) (fun i => if has [a; b] (elt i) then (if edge_in_dec (edgeOf a b) (r_new s) then 0 else 1) else 0)) by (intros i Hi; apply in_seq in Hi; apply C; lia).
    destruct (edge_in_dec _ _).
    - apply sum_zero. intros j _. now destruct (has _ _).
    - now rewrite sharing_old.
  Qed.
  Lemma half_edge a k e : a < nv -> nth_error (r_new s) k = Some e -> (a = fst e \/ a = snd e) ->
    sharing (v_elements (rebuilt g s)) [a; nv + k] = sharing (v_elements g) [fst e; snd e].
  Proof.
    intros La K A. rewrite sharing_sum, sharing_old. apply list_sum_map_ext. intros i Hi. apply in_seq in Hi. assert (Li : i < n) by lia.
    assert (E0 : exists i0 j0, i0 < n /\ j0 < 3 /\ keyOf g i0 j0 = e) by (apply (inv_edges IV); now apply nth_error_In in K).
    assert (Es : edgeOf (fst e) (snd e) = e /\ fst e <> snd e).
    { destruct E0 as (i0 & j0 & Li0 & Lj0 & <-). unfold keyOf. pose proof (@element_nodup g WF i0 Li0) as ND. destruct (element g i0) as [[x y] z]. cbn in ND. inversion ND as [|? ? M1 ND']; subst. inversion ND' as [|? ? M2 _]; subst. cbn in M1, M2.
      destruct j0 as [|[|[|j0]]]; [| | |lia]; cbn; unfold elementEdge, edgeOf; cbn; (split; [f_equal; lia|]); intros Q; intuition lia. }
    destruct Es as [Es Ns].
    destruct (has [fst e; snd e] (elt i)) eqn:H.
    - rewrite has_ok in H. destruct (corner_of Li (H (fst e) (or_introl eq_refl))) as (x & Cx & Px & Ex). destruct (corner_of Li (H (snd e) (or_intror (or_introl eq_refl)))) as (y & Cy & Py & Ey).
      assert (NXY : x <> y) by congruence.
      assert (PM : present (mo i) (midS x y) = true). { apply mid_present; auto. rewrite Ex, Ey, Es. now apply nth_error_In in K. }
      assert (M : isCorner (midS x y) = false) by (destruct x, y; try discriminate; try congruence; reflexivity).
      assert (VM : V i (midS x y) = nv + k).
      { destruct (mid_spec Li M PM) as (k' & K1 & K2). rewrite K2. f_equal.
        assert (E : edgeOf (V i (fst (ends (midS x y)))) (V i (snd (ends (midS x y)))) = e). { rewrite <- Es, <- Ex, <- Ey. destruct x, y; try discriminate; try congruence; try reflexivity; apply edgeOf_sym. }
        rewrite E in K1. apply (proj1 (NoDup_nth_error (r_new s)) (inv_nodup IV)); [apply nth_error_Some; congruence|congruence]. }
      assert (Z : exists z, isCorner z = true /\ present (mo i) z = true /\ V i z = a /\ In z (ownS (midS x y))).
      { destruct A as [->| ->]; [exists x|exists y]; (split; [assumption|]); (split; [assumption|]); (split; [assumption|]); destruct x, y; try discriminate; try congruence; cbn; auto. }
      destruct Z as (z & Cz & Pz & <- & Oz). rewrite <- VM. change [V i z; V i (midS x y)] with (map (V i) [z; midS x y]). rewrite cnt_sym by (exact Li || (intros c [<-|[<-|[]]]; assumption)).
      assert (NZ : z <> midS x y) by (intros C; rewrite <- C in M; congruence). destruct (pair_table Pz PM NZ) as (_ & _ & T & _). now apply T.
    - destruct (Nat.eq_dec (cnt i [a; nv + k]) 0) as [Z|Z]; [exact Z|]. exfalso. assert (H' : has [fst e; snd e] (elt i) = true); [|congruence]. apply has_ok.
      intros c Hc. apply (@cnt_own i [a; nv + k] (nv + k)); auto; [cbn; auto|]. right. exists k, e. split; [reflexivity|]. split; [exact K|]. cbn in Hc. intuition congruence.
  Qed.
  (** edges inside an old element *)
  Lemma inner_edge a b : a <> b -> (nv <= b) -> (a < nv -> ~ ownR b a) ->
    sharing (v_elements (rebuilt g s)) [a; b] = 0 \/ sharing (v_elements (rebuilt g s)) [a; b] = 2.
  Proof.
    intros N Lb O. rewrite sharing_sum.
    destruct (existsb (fun i => negb (cnt i [a; b] =? 0)) (seq 0 n)) eqn:X.
    - apply existsb_exists in X. destruct X as (i & Hi & C). apply in_seq in Hi. assert (Li : i < n) by lia. apply negb_true_iff, Nat.eqb_neq in C.
      destruct (@cnt_present i [a; b] a Li (or_introl eq_refl) C) as (x & Px & Ex). destruct (@cnt_present i [a; b] b Li (or_intror (or_introl eq_refl)) C) as (y & Py & Ey).
      assert (NXY : x <> y) by congruence. assert (Cy : isCorner y = false). { destruct (isCorner y) eqn:Q; [|reflexivity]. destruct (corner_lt Li Q). lia. }
      assert (CV : covers [x; y] = true).
      { destruct (pair_table Px Py NXY) as (_ & _ & _ & T4 & T5). destruct (isCorner x) eqn:Cx; [|now apply T5]. apply T4; auto. intros I. destruct (corner_lt Li Cx) as [Lx _]. apply O; [lia|].
        rewrite <- Ey, <- Ex. apply own_spec; auto. exists x. auto. }
      assert (PP : forall c, In c [x; y] -> present (mo i) c = true) by (intros c [<-|[<-|[]]]; assumption).
      assert (EQ : [a; b] = map (V i) [x; y]) by (cbn; congruence).
      rewrite (sum_covered Li EQ PP CV). rewrite EQ in C |- *. rewrite cnt_sym in * by auto. destruct (pair_table Px Py NXY) as (T & _). apply T. exact CV.
    - left. apply sum_zero. intros j Hj. destruct (Nat.eq_dec (cnt j [a; b]) 0) as [Z|Z]; [exact Z|]. exfalso.
      assert (existsb (fun i => negb (cnt i [a; b] =? 0)) (seq 0 n) = true); [|congruence]. apply existsb_exists. exists j. split; [exact Hj|]. apply negb_true_iff, Nat.eqb_neq. exact Z.
  Qed.
  Lemma new_triple a b c : NoDup [a; b; c] -> sharing (v_elements (rebuilt g s)) [a; b; c] <= 1.
  Proof.
    intros ND. inversion ND as [|? ? M1 ND']; subst. inversion ND' as [|? ? M2 _]; subst. cbn in M1, M2. rewrite sharing_sum.
    destruct (existsb (fun i => negb (cnt i [a; b; c] =? 0)) (seq 0 n)) eqn:X.
    - apply existsb_exists in X. destruct X as (i & Hi & C). apply in_seq in Hi. assert (Li : i < n) by lia. apply negb_true_iff, Nat.eqb_neq in C.
      destruct (@cnt_present i [a; b; c] a Li ltac:(cbn; auto) C) as (x & Px & Ex). destruct (@cnt_present i [a; b; c] b Li ltac:(cbn; auto) C) as (y & Py & Ey). destruct (@cnt_present i [a; b; c] c Li ltac:(cbn; auto) C) as (z & Pz & Ez).
      assert (D1 : x <> y) by (intros Q; subst y; apply M1; left; congruence). assert (D2 : x <> z) by (intros Q; subst z; apply M1; right; left; congruence). assert (D3 : y <> z) by (intros Q; subst z; apply M2; left; congruence).
      assert (PP : forall w, In w [x; y; z] -> present (mo i) w = true) by (intros w [<-|[<-|[<-|[]]]]; assumption).
      assert (EQ : [a; b; c] = map (V i) [x; y; z]) by (cbn; congruence).
      destruct (triple_table Px Py Pz D1 D2 D3) as [T1 T2]. rewrite EQ in C. rewrite cnt_sym in C by auto.
      rewrite (sum_covered Li EQ PP (T2 C)), EQ, cnt_sym by auto. exact T1.
    - rewrite sum_zero; [lia|]. intros j Hj. destruct (Nat.eq_dec (cnt j [a; b; c]) 0) as [Z|Z]; [exact Z|]. exfalso.
      assert (existsb (fun i => negb (cnt i [a; b; c] =? 0)) (seq 0 n) = true); [|congruence]. apply existsb_exists. exists j. split; [exact Hj|]. apply negb_true_iff, Nat.eqb_neq. exact Z.
  Qed.
End Refined.
