(** C46: accuracy options by distance; C87: quadrature orders of an element pair. *)
From Coq Require Import Reals ZArith List Bool Lia Lra Permutation.
Import ListNotations.
From Verif Require Import Base ArrayModel BoxModel QuadModel QuadSpec TopoProofs AccModel AccSpec AccProofs.
Set Implicit Arguments.

(** C46: setSingleRegular/setDoubleRegular with distances and orders *)
Theorem order_lookup : forall distances orders relative, length orders = S (length distances) ->
  (Z.of_nat (length orders) < 2 ^ 64)%Z -> manageable (requested distances orders relative) ->
  exists m, setOrders distances orders relative = Ok m /\
    forall d, exists o, lookup m d = Ok o /\ narrowest (requested distances orders relative) d o.
Proof.
  intros ds os rel L B M. rewrite (@setOrders_ok ds os rel L B), (stdSort_ok M). cbn [bind].
  eexists. split; [reflexivity|]. intros d. rewrite lookup_unique.
  destruct (sortAll_ok (requested ds os rel)) as (S & P).
  destruct (lookup_cases (sortAll (requested ds os rel)) d) as [T | (o & T)].
  - exfalso. destruct (@requested_inf ds os rel L) as (o & Hi). rewrite lookup_throws in T.
    apply (T Inf o); [apply (Permutation_in _ P Hi)|]. destruct d; exact I.
  - exists o. split; auto. apply (narrowest_perm (Permutation_sym P)). apply lookup_sorted; auto.
Qed.
(** ... a list of orders of the wrong length is rejected *)
Theorem order_lists_checked : forall distances orders relative, length orders <> S (length distances) ->
  (Z.of_nat (length distances) < 2 ^ 64 - 1)%Z -> (Z.of_nat (length orders) < 2 ^ 64)%Z ->
  setOrders distances orders relative = Throws.
Proof. exact setOrders_throws. Qed.
(** ... and the overloads taking a list of brackets, where the widest bracket also covers all larger distances *)
Theorem order_ranges : forall input, input <> [] -> manageable input ->
  exists m, setRanges input = Ok m /\
    forall d, exists o, lookup m d = Ok o /\
      (narrowest input d o \/ (widest input o /\ forall m' o', In (m', o') input -> ~ dLe d m')).
Proof.
  intros input Hne M. unfold setRanges. rewrite (stdSort_ok M). cbn [bind].
  destruct (sortAll_ok input) as (S & P). set (s := sortAll input) in *.
  destruct (@exists_last _ s) as (i & (mx & ox) & E). { intros X. rewrite X in P. apply Permutation_sym, Permutation_nil in P. contradiction. }
  destruct (@unique_last s i (mx, ox) E) as (j & Ej). cbv zeta. rewrite Ej, rev_app_distr. cbn [rev app].
  eexists. split; [reflexivity|]. intros d. rewrite rev_involutive.
  pose proof (lookup_unique s d) as U. rewrite Ej in U. rewrite lookup_app in U |- *. cbn [lookup] in U |- *.
  replace (dle d Inf) with true by (destruct d; reflexivity).
  destruct (lookup_cases j d) as [T | (o & T)]; rewrite T in U |- *.
  - exists ox. split; auto. destruct (dle d mx) eqn:Ed.
    + left. apply (narrowest_perm (Permutation_sym P)). apply lookup_sorted; auto.
    + right. split.
      * destruct (@sorted_last s i mx ox E S) as (m & A & C). exists m. split; [apply (Permutation_in _ (Permutation_sym P) A)|].
        intros m' o' Hi. apply (C m' o'). apply (Permutation_in _ P Hi).
      * intros m' o' Hi. symmetry in U. rewrite lookup_throws in U. apply (U m' o'). apply (Permutation_in _ P Hi).
  - exists o. split; auto. left. apply (narrowest_perm (Permutation_sym P)). apply lookup_sorted; auto.
Qed.

(** sizes, centres and average sizes: the quantities in [regular_orders].  The size of a triangle is its longest edge;
    for quadrilaterals the corners 0, 2 and 1, 3 are compared *)
Lemma sumPoints_coord l : sumPoints l = (coordSum (fun p => fst (fst p)) l, coordSum (fun p => snd (fst p)) l, coordSum (@snd _ _) l).
Proof.
  unfold sumPoints. assert (G : forall a, fold_left (fun a p => (px a + px p, py a + py p, pz a + pz p)%R) l a =
    (px a + coordSum (fun p => fst (fst p)) l, py a + coordSum (fun p => snd (fst p)) l, pz a + coordSum (@snd _ _) l)%R).
  { induction l as [|p l IH]; intros [[x y] z]; cbn [fold_left coordSum fold_right]; [unfold px, py, pz; cbn [fst snd]; f_equal; [f_equal|]; ring|].
    rewrite IH. destruct p as [[u v] w]. unfold px, py, pz, coordSum. cbn [fst snd fold_right]. f_equal; [f_equal|]; ring. }
  rewrite G. unfold px, py, pz. cbn [fst snd]. f_equal; [f_equal|]; ring.
Qed.
Theorem element_measures : forall g e,
  (forall a b c, nth_error (sg_corners g) e = Some [a; b; c] ->
     largestSquared [sg_vertex g a; sg_vertex g b; sg_vertex g c] (sizeSquared g e)) /\
  (forall a b c d, nth_error (sg_corners g) e = Some [a; b; c; d] ->
     sizeSquared g e = Rmax (squaredDistance (sg_vertex g a) (sg_vertex g c)) (squaredDistance (sg_vertex g b) (sg_vertex g d))) /\
  (forall cs, nth_error (sg_corners g) e = Some cs ->
     let pts := map (sg_vertex g) cs in
     centre g e = (coordSum (fun p => fst (fst p)) pts / INR (length cs), coordSum (fun p => snd (fst p)) pts / INR (length cs),
                   coordSum (@snd _ _) pts / INR (length cs))%R) /\
  averageSize g = (fold_right (fun k s => sqrt (sizeSquared g k) + s) 0 (seq 0 (length (sg_corners g))) / INR (length (sg_corners g)))%R /\
  (forall p q, sqDist p q = squaredDistance p q) /\
  (forall h, commonSize g None = averageSize g /\ commonSize g (Some h) = (averageSize g + averageSize h) / 2)%R.
Proof.
  intros g e.
  assert (SQ : forall p q, sqDist p q = squaredDistance p q) by (intros [[x y] z] [[u v] w]; unfold sqDist, squaredDistance; cbn; ring).
  assert (SY : forall p q, squaredDistance p q = squaredDistance q p) by (intros; rewrite <- !SQ; apply sqDist_sym).
  assert (S0 : forall p, squaredDistance p p = 0%R) by (intros [[x y] z]; unfold squaredDistance; ring).
  assert (SP : forall p q, (0 <= squaredDistance p q)%R).
  { intros [[x y] z] [[u v] w]; unfold squaredDistance. pose proof (pow2_ge_0 (x - u)). pose proof (pow2_ge_0 (y - v)). pose proof (pow2_ge_0 (z - w)). lra. }
  split; [|split; [|split; [|split; [|split]]]]; auto.
  - intros a b c N. unfold sizeSquared. cbv zeta. rewrite (nth_error_nth _ _ [] N). cbn [length nth Nat.eqb]. rewrite !SQ.
    set (A := sg_vertex g a). set (B := sg_vertex g b). set (C := sg_vertex g c).
    pose proof (SP B A). pose proof (SP C B). pose proof (SP A C).
    unfold Rmax at 3. destruct (Rle_dec 0 (squaredDistance B A)) as [_|X]; [|contradiction].
    split.
    + intros p q Hp Hq.
      assert (M1 : (squaredDistance B A <= Rmax (Rmax (squaredDistance B A) (squaredDistance C B)) (squaredDistance A C))%R) by (eapply Rle_trans; [apply Rmax_l|apply Rmax_l]).
      assert (M2 : (squaredDistance C B <= Rmax (Rmax (squaredDistance B A) (squaredDistance C B)) (squaredDistance A C))%R) by (eapply Rle_trans; [apply Rmax_r|apply Rmax_l]).
      assert (M3 : (squaredDistance A C <= Rmax (Rmax (squaredDistance B A) (squaredDistance C B)) (squaredDistance A C))%R) by apply Rmax_r.
      pose proof (SY A B). pose proof (SY B C). pose proof (SY A C). pose proof (S0 A). pose proof (S0 B). pose proof (S0 C).
      destruct Hp as [<-|[<-|[<-|[]]]], Hq as [<-|[<-|[<-|[]]]]; lra.
    + unfold Rmax. destruct (Rle_dec (squaredDistance B A) (squaredDistance C B)).
      * destruct (Rle_dec (squaredDistance C B) (squaredDistance A C)); [exists A, C|exists C, B]; cbn; auto 10.
      * destruct (Rle_dec (squaredDistance B A) (squaredDistance A C)); [exists A, C|exists B, A]; cbn; auto 10.
  - intros a b c d N. unfold sizeSquared. cbv zeta. rewrite (nth_error_nth _ _ [] N). cbn [length nth Nat.eqb]. rewrite !SQ.
    rewrite (SY (sg_vertex g c)), (SY (sg_vertex g d)). reflexivity.
  - intros cs N. cbv zeta. unfold centre. cbv zeta. rewrite (nth_error_nth _ _ [] N), sumPoints_coord. reflexivity.
  - unfold averageSize. f_equal. generalize (seq 0 (length (sg_corners g))). intros l.
    assert (G : forall a, fold_left (fun a k => a + sqrt (sizeSquared g k))%R l a = (a + fold_right (fun k s => sqrt (sizeSquared g k) + s) 0 l)%R).
    { induction l as [|k l IH]; intros a; cbn; [ring|]. rewrite IH. ring. }
    rewrite G. ring.
Qed.
Print Assumptions element_measures.

(** C87: orders of the quadrature rule chosen for a pair of elements *)
Theorem regular_orders : forall ao distances orders relative g g' e f nominal D,
  length orders = S (length distances) -> (Z.of_nat (length orders) < 2 ^ 64)%Z -> manageable (requested distances orders relative) ->
  setOrders distances orders relative = Ok (ao_regular ao) ->
  quadratureDescriptor ao g g' e f nominal = Ok D -> t_type (d_topology D) = Disjoint ->
  exists o, inForce o (sg_order g e) (d_test D) /\ inForce o (sg_order (trialOf g g') f) (d_trial D) /\
    narrowest (requested distances orders relative)
      (Fin (if Rlt_dec nominal 0
            then sqrt (sqDist (centre (trialOf g g') f) (centre g e) / Rmax (sizeSquared g e) (sizeSquared (trialOf g g') f))
            else nominal / commonSize g g')) o.
Proof.
  intros ao ds os rel g g' e f nom D L B M HS HD HT.
  destruct (@order_lookup ds os rel L B M) as (m & Em & Hm). rewrite HS in Em. injection Em as Em. subst m.
  unfold quadratureDescriptor in HD.
  destruct (nth_error (sg_corners g) e) as [ce|]; [|discriminate].
  destruct (nth_error (sg_corners (trialOf g g')) f) as [cf|]; [|discriminate].
  match type of HD with bind ?x _ = _ => destruct x as [t| |]; try discriminate HD end. cbn [bind] in HD.
  destruct (t_type t) eqn:Et; try (injection HD as <-; cbn in HT; congruence).
  match goal with |- exists o, _ /\ _ /\ narrowest _ ?d _ => set (dd := d) end.
  assert (N : normalised g g' e f nom = Ok dd \/ normalised g g' e f nom = Undefined).
  { unfold normalised, dd. destruct (Rlt_dec nom 0).
    - destruct (Req_EM_T _ 0); auto.
    - destruct (Req_EM_T _ 0); auto. }
  destruct N as [N | N]; rewrite N in HD; cbn [bind] in HD; [|discriminate].
  destruct (Hm dd) as (o & Ho & Hn). rewrite Ho in HD. cbn [bind] in HD. injection HD as <-. cbn.
  exists o. split; [|split]; auto; reflexivity.
Qed.
(** ... for elements of one grid with a common vertex neither the distances nor the nominal distance matter *)
Theorem singular_orders : forall ao g e f ce cf nominal D,
  nth_error (sg_corners g) e = Some ce -> nth_error (sg_corners g) f = Some cf ->
  (exists v, In v ce /\ In v cf) ->
  quadratureDescriptor ao g None e f nominal = Ok D ->
  t_type (d_topology D) <> Disjoint /\
  inForce (ao_singular ao) (sg_order g e + 5) (d_test D) /\ inForce (ao_singular ao) (sg_order g f + 5) (d_trial D) /\
  forall ao' nominal', ao_singular ao' = ao_singular ao -> quadratureDescriptor ao' g None e f nominal' = Ok D.
Proof.
  intros ao g e f ce cf nom D He Hf (v & Hv & Hv') HD.
  assert (H0 : hits ce cf <> []).
  { intros X. assert (L : commonVertices ce cf = 0%nat) by (rewrite <- (hits_length ce cf 0); unfold hits in X; rewrite X; reflexivity).
    unfold commonVertices in L. apply length_zero_iff_nil in L.
    assert (In v (filter (fun v => if in_dec Z.eq_dec v ce then true else false) cf)).
    { apply filter_In. split; auto. destruct (in_dec Z.eq_dec v ce); auto. }
    rewrite L in H. destruct H. }
  assert (HTt : forall t, determineTopology ce cf = Ok t -> t_type t <> Disjoint).
  { intros t. unfold determineTopology. destruct (hits ce cf) as [|[a b] [|[c d] [|x r]]]; [contradiction| | |]; cbn [length].
    - intros X. injection X as <-. cbn. discriminate.
    - intros X. injection X as <-. cbn. discriminate.
    - destruct (4 <? _)%nat; [discriminate|]. destruct (_ && _); [|discriminate]. intros X. injection X as <-. cbn. discriminate. }
  unfold quadratureDescriptor in *. cbn [trialOf] in *. rewrite He, Hf in *. 
  destruct (determineTopology ce cf) as [t| |] eqn:Et; try discriminate HD. cbn [bind] in *.
  specialize (HTt t eq_refl).
  destruct (t_type t) eqn:Ett; [congruence| | |]; injection HD as <-; cbn; (split; [congruence|]); (split; [reflexivity|]); (split; [reflexivity|]);
    intros ao' nom' ->; rewrite ?Et; cbn [bind]; rewrite ?Ett; reflexivity.
Qed.
(** elements of different grids, and elements of one grid without a common vertex, get a regular rule *)
Theorem regular_pairs : forall ao g g' e f nominal D, quadratureDescriptor ao g g' e f nominal = Ok D ->
  (g' = None -> forall ce cf v, nth_error (sg_corners g) e = Some ce -> nth_error (sg_corners g) f = Some cf -> In v ce -> In v cf -> False) ->
  t_type (d_topology D) = Disjoint.
Proof.
  intros ao g g' e f nom D HD HN. unfold quadratureDescriptor in HD.
  destruct (nth_error (sg_corners g) e) as [ce|] eqn:He; [|discriminate].
  destruct (nth_error (sg_corners (trialOf g g')) f) as [cf|] eqn:Hf; [|discriminate].
  assert (T : match g' with None => determineTopology ce cf | Some _ => Ok (Topo Disjoint (length ce) (length cf) (-1) (-1) (-1) (-1)) end = Ok (Topo Disjoint (length ce) (length cf) (-1) (-1) (-1) (-1))).
  { destruct g' as [h|]; [reflexivity|]. cbn [trialOf] in Hf. assert (L : hits ce cf = []).
    { apply length_zero_iff_nil. unfold hits. rewrite hits_length. unfold commonVertices. apply length_zero_iff_nil. destruct (filter _ cf) as [|v l] eqn:X; auto.
      exfalso. assert (I : In v (filter (fun v => if in_dec Z.eq_dec v ce then true else false) cf)) by (rewrite X; left; reflexivity).
      apply filter_In in I as (I1 & I2). destruct (in_dec Z.eq_dec v ce); [|discriminate]. eapply HN; eauto. }
    unfold determineTopology. rewrite L. reflexivity. }
  rewrite T in HD. cbn [bind t_type] in HD. destruct (normalised g g' e f nom) as [d| |]; try discriminate HD. cbn [bind] in HD. destruct (lookup (ao_regular ao) d) as [o| |]; try discriminate HD. injection HD as <-. reflexivity.
Qed.
(** ... and exchanging the two elements exchanges the two orders *)
Theorem orders_symmetric : forall ao g e f nominal D D' ce cf,
  nth_error (sg_corners g) e = Some ce -> nth_error (sg_corners g) f = Some cf -> NoDup ce -> NoDup cf ->
  quadratureDescriptor ao g None e f nominal = Ok D -> quadratureDescriptor ao g None f e nominal = Ok D' ->
  d_test D' = d_trial D /\ d_trial D' = d_test D /\ t_type (d_topology D') = t_type (d_topology D).
Proof.
  intros ao g e f nom D D' ce cf He Hf Ne Nf HD HD'.
  assert (C : length (hits cf ce) = length (hits ce cf)) by (rewrite (Permutation_length (hits_swap Ne Nf)), map_length; reflexivity).
  unfold quadratureDescriptor in *. cbn [trialOf] in *. rewrite He, Hf in *.
  destruct (determineTopology ce cf) as [t| |] eqn:Et; try discriminate HD.
  destruct (determineTopology cf ce) as [t'| |] eqn:Et'; try discriminate HD'. cbn [bind] in *.
  pose proof (topo_type _ _ Et) as T. pose proof (topo_type _ _ Et') as T'. rewrite C, <- T in T'. rewrite T' in HD'.
  assert (N : normalised g None f e nom = normalised g None e f nom).
  { unfold normalised. cbn [trialOf]. rewrite (Rmax_comm (sizeSquared g f)), (sqDist_sym (centre g e)). reflexivity. }
  rewrite N in HD'.
  destruct (t_type t) eqn:Ett.
  - destruct (normalised g None e f nom) as [d| |]; try discriminate HD. cbn [bind] in *.
    destruct (lookup (ao_regular ao) d) as [o| |]; try discriminate HD. cbn [bind] in *.
    injection HD as <-. injection HD' as <-. cbn. rewrite T', Ett. auto.
  - injection HD as <-. injection HD' as <-. cbn. rewrite T', Ett. auto.
  - injection HD as <-. injection HD' as <-. cbn. rewrite T', Ett. auto.
  - injection HD as <-. injection HD' as <-. cbn. rewrite T', Ett. auto.
Qed.

(** Witnesses: three brackets given in the wrong order with a repeated distance *)
Definition exDist : list dist := [Fin 4; Fin 2; Fin 4].
Definition exOrders : list Z := [5; 8; 6; 3]%Z.
Example ex_manageable : length exOrders = S (length exDist) /\ (Z.of_nat (length exOrders) < 2 ^ 64)%Z /\ manageable (requested exDist exOrders true).
Proof. split; [reflexivity|]. split; [cbn; lia|]. left. cbn. lia. Qed.
Example ex_lookup : exists m, setOrders exDist exOrders true = Ok m /\ lookup m (Fin 1) = Ok (QOpt true 8) /\ lookup m (Fin 3) = Ok (QOpt true 6) /\ lookup m (Fin 9) = Ok (QOpt true 3).
Proof.
  assert (A : dle (Fin 2) (Fin 4) = true) by (apply dle_iff; cbn; lra).
  assert (B : dle (Fin 4) (Fin 2) = false) by (apply dle_false; cbn; lra).
  assert (C : dle (Fin 4) (Fin 4) = true) by (apply dle_iff; cbn; lra).
  assert (E : setOrders exDist exOrders true = Ok [(Fin 2, QOpt true 8); (Fin 4, QOpt true 6); (Inf, QOpt true 3); (Inf, QOpt true 3)]).
  { assert (I1 : forall a, dle a Inf = true) by (destruct a; reflexivity).
    assert (I2 : forall x, dle Inf (Fin x) = false) by reflexivity.
    unfold setOrders, exDist, exOrders, stdSort, sortAll.
    replace (negb _) with false by reflexivity. cbn [length rev app map combine fold_left sortInsert fst].
    do 6 (cbn -[dle]; unfold deq; rewrite ?A, ?B, ?C, ?I1, ?I2). reflexivity. }
  rewrite E. eexists. split; [reflexivity|]. cbn [lookup].
  assert (D1 : dle (Fin 1) (Fin 2) = true) by (apply dle_iff; cbn; lra).
  assert (D2 : dle (Fin 3) (Fin 2) = false) by (apply dle_false; cbn; lra).
  assert (D3 : dle (Fin 3) (Fin 4) = true) by (apply dle_iff; cbn; lra).
  assert (D4 : dle (Fin 9) (Fin 2) = false) by (apply dle_false; cbn; lra).
  assert (D5 : dle (Fin 9) (Fin 4) = false) by (apply dle_false; cbn; lra).
  rewrite D1, D2, D3, D4, D5. cbn. auto.
Qed.
(** two unit triangles without and two with a common edge *)
Definition exGeom : sgeom := SGeom [[0; 1; 2]; [1; 3; 2]; [4; 5; 6]]%Z
  (fun v => if (v =? 0)%Z then (0, 0, 0)%R else if (v =? 1)%Z then (1, 0, 0)%R else if (v =? 2)%Z then (0, 1, 0)%R else
            if (v =? 3)%Z then (1, 1, 0)%R else if (v =? 4)%Z then (5, 0, 0)%R else if (v =? 5)%Z then (6, 0, 0)%R else (5, 1, 0)%R)
  (fun _ => 1%Z).
Example ex_singular : quadratureDescriptor (Accuracy defaultRanges (QOpt true 1)) exGeom None 0 1 (-1) =
  Ok (Desc (Topo SharedEdge 3 3 1 2 0 2) 7 7).
Proof. reflexivity. Qed.
Example ex_regular :
  quadratureDescriptor (Accuracy [(Inf, QOpt false 4)] qdefault) exGeom None 0 2 (-1) = Ok (Desc (Topo Disjoint 3 3 (-1) (-1) (-1) (-1)) 4 4).
Proof.
  unfold quadratureDescriptor. cbn [sg_corners exGeom nth_error trialOf]. cbn [determineTopology].
  replace (determineTopology [0; 1; 2]%Z [4; 5; 6]%Z) with (Ok (Topo Disjoint 3 3 (-1) (-1) (-1) (-1))) by reflexivity.
  cbn [bind t_type]. unfold normalised. destruct (Rlt_dec (-1) 0); [|lra].
  destruct (Req_EM_T _ 0) as [E | E]; [exfalso | reflexivity].
  assert (1 <= sizeSquared exGeom 0)%R.
  { unfold sizeSquared. cbn [exGeom sg_corners nth length Nat.eqb].
    eapply Rle_trans; [| apply Rmax_l]. eapply Rle_trans; [| apply Rmax_l]. eapply Rle_trans; [| apply Rmax_r].
    unfold sqDist. cbn. lra. }
  pose proof (Rmax_l (sizeSquared exGeom 0) (sizeSquared exGeom 2)). cbn [trialOf] in E. lra.
Qed.

Print Assumptions order_lookup.
Print Assumptions order_lists_checked.
Print Assumptions order_ranges.
Print Assumptions regular_orders.
Print Assumptions singular_orders.
Print Assumptions orders_symmetric.
Print Assumptions regular_pairs.
