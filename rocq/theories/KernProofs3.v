(** Laplace operator of the kernels. *)
From Coq Require Import Reals List Lra Lia FunctionalExtensionality.
Import ListNotations.
From Verif Require Import Base ComplexR VecModel VecSpec KernModel KernSpec KernProofs KernProofs2.
Set Implicit Arguments.
Unset Strict Implicit.
Local Open Scope R_scope.

Lemma dl_local f g t l : (exists e, 0 < e /\ forall h, Rabs h < e -> f (t + h) = g (t + h)) -> derivable_pt_lim f t l -> derivable_pt_lim g t l.
Proof.
  intros (e & E & H) D eps P. destruct (D eps P) as [d Q].
  exists (mkposreal (Rmin d e) (Rmin_glb_lt _ _ _ (cond_pos d) E)). intros h N L. cbn in L.
  rewrite <- (H h) by (eapply Rlt_le_trans; [exact L|apply Rmin_r]).
  assert (G0 : f t = g t). { replace t with (t + 0) by ring. apply H. now rewrite Rabs_R0. }
  rewrite <- G0. apply Q; [exact N|]. eapply Rlt_le_trans; [exact L|apply Rmin_l].
Qed.
Definition near (P : vec -> Prop) (x d : vec) : Prop := exists e, 0 < e /\ forall t, Rabs t < e -> P (at_ x d t).
Lemma deriv_local f g x d l : near (fun z => f z = g z) x d -> deriv f x d l -> deriv g x d l.
Proof.
  intros (e & E & H) [A B]. split.
  - apply (dl_local (f := fun t => fst (f (at_ x d t)))); [|exact A]. exists e. split; [exact E|]. intros h L. rewrite Rplus_0_l. change (vadd x (vscale h d)) with (at_ x d h). now rewrite H.
  - apply (dl_local (f := fun t => snd (f (at_ x d t)))); [|exact B]. exists e. split; [exact E|]. intros h L. rewrite Rplus_0_l. change (vadd x (vscale h d)) with (at_ x d h). now rewrite H.
Qed.
Lemma near_coord a b c : a <> b -> exists e, 0 < e /\ forall t, Rabs t < e -> a + t * c <> b.
Proof.
  intros N. exists (Rabs (a - b) / (1 + Rabs c)). pose proof (Rabs_pos c). assert (0 < Rabs (a - b)) by (apply Rabs_pos_lt; lra). split.
  - apply Rdiv_lt_0_compat; lra.
  - intros t L Q. apply (Rmult_lt_compat_r (1 + Rabs c)) in L; [|lra]. unfold Rdiv in L. rewrite Rmult_assoc, Rinv_l, Rmult_1_r in L by lra.
    replace (a - b) with (- (t * c)) in L by lra. rewrite Rabs_Ropp, Rabs_mult in L. pose proof (Rabs_pos t). nra.
Qed.
Lemma near_ne x y d : x <> y -> near (fun z => z <> y) x d.
Proof.
  intros N. destruct x as [x1 x2 x3], y as [y1 y2 y3], d as [d1 d2 d3].
  destruct (Req_dec x1 y1) as [E1|E1]; [destruct (Req_dec x2 y2) as [E2|E2]; [destruct (Req_dec x3 y3) as [E3|E3]; [now subst|]|]|].
  - destruct (near_coord d3 E3) as (e & P & H). exists e. split; [exact P|]. intros t L Q. apply (H t L). unfold at_, vadd, vscale in Q. cbn in Q. now injection Q.
  - destruct (near_coord d2 E2) as (e & P & H). exists e. split; [exact P|]. intros t L Q. apply (H t L). unfold at_, vadd, vscale in Q. cbn in Q. now injection Q.
  - destruct (near_coord d1 E1) as (e & P & H). exists e. split; [exact P|]. intros t L Q. apply (H t L). unfold at_, vadd, vscale in Q. cbn in Q. now injection Q.
Qed.
Lemma near_and (P Q : vec -> Prop) x d : near P x d -> near Q x d -> near (fun z => P z /\ Q z) x d.
Proof.
  intros (e & E & H) (f & F & G). exists (Rmin e f). split; [now apply Rmin_glb_lt|]. intros t L. split; [apply H|apply G]; (eapply Rlt_le_trans; [exact L|]); [apply Rmin_l|apply Rmin_r].
Qed.
Lemma near_imp (P Q : vec -> Prop) x d : (forall z, P z -> Q z) -> near P x d -> near Q x d.
Proof. intros I (e & E & H). exists e. split; [exact E|]. intros t L. apply I, H, L. Qed.
Definition openLines (U : vec -> Prop) : Prop := forall x d, U x -> near U x d.
Lemma open_ne y : openLines (fun z => z <> y).
Proof. intros x d H. now apply near_ne. Qed.
Lemma open_notin l : openLines (fun z => ~ In z l).
Proof.
  induction l as [|y l IH]; intros x d H; [exists 1; split; [lra|]; intros t _ F; exact F|].
  assert (near (fun z => z <> y /\ ~ In z l) x d) as N.
  { apply near_and; [apply near_ne; intros E; apply H; now left|apply IH; intros F; apply H; now right]. }
  revert N. apply near_imp. intros z [A B] [C|C]; [now apply A|now apply B].
Qed.
Lemma deriv_on U f g x d l : openLines U -> U x -> (forall z, U z -> f z = g z) -> deriv f x d l -> deriv g x d l.
Proof. intros O H E. apply deriv_local. apply (near_imp (P := U)); [exact E|]. apply O, H. Qed.

Lemma lap_ext U f g F G : openLines U -> (forall z, U z -> f z = g z) -> (forall z, U z -> F z = G z) -> laplacianOn U f F -> laplacianOn U g G.
Proof.
  intros O E E' (g' & h & H). exists g', h. intros x Ux. destruct (H x Ux) as [A B]. split.
  - intros i I. destruct (A i I) as [C D]. split; [|exact D]. exact (deriv_on O Ux E C).
  - now rewrite <- E'.
Qed.
Lemma lap_sub (U V : vec -> Prop) f F : (forall z, V z -> U z) -> laplacianOn U f F -> laplacianOn V f F.
Proof. intros I (g & h & H). exists g, h. intros x Vx. apply H, I, Vx. Qed.
Lemma lap_add U f g F G : laplacianOn U f F -> laplacianOn U g G -> laplacianOn U (fun z => c_add (f z) (g z)) (fun z => c_add (F z) (G z)).
Proof.
  intros (a & b & H) (c & d & K). exists (fun i z => c_add (a i z) (c i z)), (fun i z => c_add (b i z) (d i z)). intros x Ux.
  destruct (H x Ux) as [A B], (K x Ux) as [C D]. split.
  - intros i I. destruct (A i I), (C i I). split; now apply deriv_add.
  - rewrite B, D. unfold c_add. cbn. f_equal; ring.
Qed.
Lemma lap_scale U c f F : laplacianOn U f F -> laplacianOn U (fun z => c_mul c (f z)) (fun z => c_mul c (F z)).
Proof.
  intros (a & b & H). exists (fun i z => c_mul c (a i z)), (fun i z => c_mul c (b i z)). intros x Ux.
  destruct (H x Ux) as [A B]. split.
  - intros i I. destruct (A i I) as [P Q]. split; (eapply deriv_eq; [apply deriv_mul; [apply deriv_const|eassumption]|]); unfold c_add, c_mul, cre; cbn; f_equal; ring.
  - rewrite B. unfold c_add, c_mul. cbn. f_equal; ring.
Qed.
Lemma lap_zero U : laplacianOn U (fun _ => (0, 0)) (fun _ => (0, 0)).
Proof.
  exists (fun _ _ => cre 0), (fun _ _ => cre 0). intros x _. split.
  - intros i I. split; apply deriv_const.
  - unfold cre, c_add. cbn. f_equal; ring.
Qed.

Lemma deriv_G k x y d : x <> y -> deriv (fun z => gG k (dist z y)) x d (c_mul (cre (dot (vsub x y) d)) (gA k (dist x y))).
Proof. intros N. apply (deriv_radial (phi := gG k)); [exact N|]. intros r. apply cd_G. Qed.
Lemma deriv_A k x y d : x <> y -> deriv (fun z => gA k (dist z y)) x d (c_mul (cre (dot (vsub x y) d)) (gB k (dist x y))).
Proof. intros N. apply (deriv_radial (phi := gA k)); [exact N|]. intros r. apply cd_A. Qed.
Lemma deriv_B k x y d : x <> y -> deriv (fun z => gB k (dist z y)) x d (c_mul (cre (dot (vsub x y) d)) (gC k (dist x y))).
Proof. intros N. apply (deriv_radial (phi := gB k)); [exact N|]. intros r. apply cd_B. Qed.
Lemma dot_unit v i : (i < 3)%nat -> dot v (unit3 i) = comp v i.
Proof. intros H. destruct i as [|[|[|i]]]; [| | |lia]; destruct v; unfold dot; cbn; ring. Qed.
Lemma dot_unit' v i : (i < 3)%nat -> dot (unit3 i) v = comp v i.
Proof. intros H. destruct i as [|[|[|i]]]; [| | |lia]; destruct v; unfold dot; cbn; ring. Qed.
Lemma comp_unit i : (i < 3)%nat -> comp (unit3 i) i = 1.
Proof. intros H. destruct i as [|[|[|i]]]; [| | |lia]; reflexivity. Qed.
Ltac csolve := unfold c_add, c_mul, cre, c_opp; cbn [fst snd]; apply injective_projections; cbn [fst snd]; ring.

Lemma lap_G k y : laplacianOn (fun z => z <> y) (fun z => gG k (dist z y)) (fun z => c_mul (c_mul k k) (gG k (dist z y))).
Proof.
  exists (fun i z => c_mul (cre (comp (vsub z y) i)) (gA k (dist z y))),
         (fun i z => c_add (gA k (dist z y)) (c_mul (cre (comp (vsub z y) i * comp (vsub z y) i)) (gB k (dist z y)))).
  intros x N. split.
  - intros i I. split.
    + eapply deriv_eq; [apply deriv_G, N|]. now rewrite dot_unit.
    + eapply deriv_eq; [apply deriv_mul; [apply deriv_coord|apply deriv_A, N]|]. rewrite comp_unit, dot_unit by exact I.
      generalize (comp (vsub x y) i). intros w. destruct (gA k (dist x y)), (gB k (dist x y)). csolve.
  - rewrite <- (radial1 k (dist_pos N)). rewrite dist_sq. destruct (vsub x y) as [a b c]. cbn [comp]. unfold dot. cbn [vx vy vz].
    destruct (gA k (dist x y)), (gB k (dist x y)). csolve.
Qed.
Lemma lap_A k y n : laplacianOn (fun z => z <> y) (fun z => c_mul (cre (dot (vsub z y) n)) (gA k (dist z y)))
  (fun z => c_mul (c_mul k k) (c_mul (cre (dot (vsub z y) n)) (gA k (dist z y)))).
Proof.
  exists (fun i z => c_add (c_mul (cre (comp n i)) (gA k (dist z y))) (c_mul (cre (dot (vsub z y) n)) (c_mul (cre (comp (vsub z y) i)) (gB k (dist z y))))),
         (fun i z => c_add (c_mul (cre (2 * comp n i * comp (vsub z y) i + dot (vsub z y) n)) (gB k (dist z y)))
                           (c_mul (cre (dot (vsub z y) n * comp (vsub z y) i * comp (vsub z y) i)) (gC k (dist z y)))).
  intros x N. split.
  - intros i I. split.
    + eapply deriv_eq; [apply deriv_mul; [apply deriv_dot|apply deriv_A, N]|]. rewrite dot_unit, dot_unit' by exact I. reflexivity.
    + eapply deriv_eq; [apply deriv_add; [apply deriv_mul; [apply deriv_const|apply deriv_A, N]|apply deriv_mul; [apply deriv_dot|apply deriv_mul; [apply deriv_coord|apply deriv_B, N]]]|].
      rewrite comp_unit, !dot_unit, dot_unit' by exact I. generalize (comp (vsub x y) i) (dot (vsub x y) n) (comp n i). intros u v w.
      destruct (gA k (dist x y)), (gB k (dist x y)), (gC k (dist x y)). csolve.
  - transitivity (c_mul (cre (dot (vsub x y) n)) (c_mul (c_mul k k) (gA k (dist x y)))); [destruct k, (gA (c, c1) (dist x y)) || idtac; csolve|].
    rewrite <- (radial2 k (dist_pos N)). rewrite dist_sq. destruct (vsub x y) as [a b c]. destruct n as [n1 n2 n3]. cbn [comp]. unfold dot. cbn [vx vy vz].
    destruct (gB k (dist x y)), (gC k (dist x y)). csolve.
Qed.
