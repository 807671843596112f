(** The geometry of the refined grid. *)
From Coq Require Import Reals ZArith List Bool Arith Lia Lra Psatz.
Import ListNotations.
From Verif Require Import Base BoxModel AccModel RefModel RefSpec RefProofs RefProofs2.
Set Implicit Arguments.
Unset Strict Implicit.

Section Geometry.
  Local Open Scope R_scope.
  Definition inT (A B C x : point) : Prop := exists a b c, 0 <= a /\ 0 <= b /\ 0 <= c /\ a + b + c = 1 /\ x = vadd (vscale a A) (vadd (vscale b B) (vscale c C)).
  Definition nrm (A B C : point) : point := vcross (vsub B A) (vsub C A).
  Definition half (A B : point) : point := vscale (1 / 2) (vadd A B).
  Lemma pt_eq (p q : point) : px p = px q -> py p = py q -> pz p = pz q -> p = q.
  Proof. destruct p as [[? ?] ?], q as [[? ?] ?]. cbn. intros -> -> ->. reflexivity. Qed.
  Ltac vec := apply pt_eq; unfold half, vadd, vsub, vscale, vcross, px, py, pz in *; cbn [fst snd] in *; (field || nra).
  Lemma inT_rot A B C x : inT A B C x <-> inT B C A x.
  Proof. split; intros (a & b & c & H1 & H2 & H3 & H4 & ->); [exists b, c, a|exists c, a, b]; (split; [lra|]); (split; [lra|]); (split; [lra|]); (split; [lra|]); vec. Qed.
  Lemma nrm_rot A B C : nrm A B C = nrm B C A.
  Proof. unfold nrm. vec. Qed.
  Lemma inT_split A B C x : inT A B C x <-> inT (half A B) C A x \/ inT (half A B) B C x.
  Proof.
    split.
    - intros (a & b & c & H1 & H2 & H3 & H4 & ->). destruct (Rle_dec b a); [left; exists (2 * b), c, (a - b)|right; exists (2 * a), (b - a), c];
      (split; [lra|]); (split; [lra|]); (split; [lra|]); (split; [lra|]); vec.
    - intros [(a & b & c & H1 & H2 & H3 & H4 & ->)|(a & b & c & H1 & H2 & H3 & H4 & ->)]; [exists (a / 2 + c), (a / 2), b|exists (a / 2), (a / 2 + b), c];
      (split; [lra|]); (split; [lra|]); (split; [lra|]); (split; [lra|]); vec.
  Qed.
  Lemma nrm_left A B C : nrm (half A B) C A = vscale (1 / 2) (nrm A B C).
  Proof. unfold nrm. vec. Qed.
  Lemma nrm_right A B C : nrm (half A B) B C = vscale (1 / 2) (nrm A B C).
  Proof. unfold nrm. vec. Qed.
  Lemma vscale_scale a b p : vscale a (vscale b p) = vscale (a * b) p.
  Proof. vec. Qed.
  Lemma vscale_one p : vscale 1 p = p.
  Proof. vec. Qed.

  (** the kids tile, symbolically *)
  Variable P : sym -> point.
  Definition inS (k : stri) (x : point) : Prop := let '(a, b, c) := k in inT (P a) (P b) (P c) x.
  Definition nrmS (k : stri) : point := let '(a, b, c) := k in nrm (P a) (P b) (P c).
  Definition mids (m : mode) : Prop := (present m MM = true -> P MM = half (P V0) (P V1)) /\ (present m N1 = true -> P N1 = half (P OP) (P V0)) /\ (present m N2 = true -> P N2 = half (P V1) (P OP)).
  Definition sharesOf (m : mode) : list R :=
    match m with None => [1] | Some (false, false) => [1/2; 1/2] | Some (true, false) => [1/4; 1/4; 1/2] | Some (false, true) => [1/4; 1/4; 1/2] | Some (true, true) => [1/4; 1/4; 1/4; 1/4] end.
  Lemma left_part m x : mids m -> m <> None -> (inT (P MM) (P OP) (P V0) x <-> inS (MM, OP, V0) x).
  Proof. reflexivity. Qed.
  Lemma N1_split b x : mids (Some (true, b)) -> (inT (P MM) (P OP) (P V0) x <-> inS (V0, MM, N1) x \/ inS (N1, MM, OP) x).
  Proof.
    intros (_ & H & _). rewrite inT_rot, (inT_split (P OP) (P V0) (P MM)), <- (H eq_refl). unfold inS. rewrite (inT_rot (P V0) (P MM) (P N1)), (inT_rot (P MM) (P N1) (P V0)). tauto.
  Qed.
  Lemma N2_split b x : mids (Some (b, true)) -> (inT (P MM) (P V1) (P OP) x <-> inS (V1, N2, MM) x \/ inS (N2, OP, MM) x).
  Proof.
    intros (_ & _ & H). rewrite inT_rot, (inT_split (P V1) (P OP) (P MM)), <- H by (destruct b; reflexivity). unfold inS. rewrite (inT_rot (P V1) (P N2) (P MM)). tauto.
  Qed.
  Lemma kids_cover m x : mids m -> (inT (P V0) (P V1) (P OP) x <-> exists k, In k (kidsOf m) /\ inS k x).
  Proof.
    intros M. assert (X : forall (l : list stri), (exists k, In k l /\ inS k x) <-> fold_right (fun k Q => inS k x \/ Q) False l).
    { induction l as [|a l IH]; cbn; [split; [intros (k & [] & _)|intros []]|]. rewrite <- IH. split.
      - intros (k & [<-|Hk] & H); [now left|right; eauto].
      - intros [H|(k & Hk & H)]; eauto. }
    rewrite X. destruct m as [[b1 b2]|]; [|cbn; tauto].
    assert (S : inT (P V0) (P V1) (P OP) x <-> inT (P MM) (P OP) (P V0) x \/ inT (P MM) (P V1) (P OP) x) by (rewrite (inT_split (P V0) (P V1) (P OP)); destruct M as (M1 & _); rewrite <- M1 by reflexivity; reflexivity).
    rewrite S. destruct b1, b2; cbn [kidsOf fold_right].
    - rewrite (N1_split x M), (N2_split x M). tauto.
    - rewrite (N1_split x M). unfold inS at 5. rewrite (inT_rot (P OP) (P MM) (P V1)). tauto.
    - rewrite (N2_split x M). unfold inS at 5. rewrite (inT_rot (P OP) (P V0) (P MM)), (inT_rot (P V0) (P MM) (P OP)). tauto.
    - unfold inS. tauto.
  Qed.
  Lemma kids_shares m : mids m -> length (sharesOf m) = length (kidsOf m) /\ rsum (sharesOf m) = 1 /\
    forall i k a, nth_error (kidsOf m) i = Some k -> nth_error (sharesOf m) i = Some a -> 0 < a /\ nrmS k = vscale a (nrm (P V0) (P V1) (P OP)).
  Proof.
    intros M. split; [destruct m as [[[|] [|]]|]; reflexivity|]. split; [destruct m as [[[|] [|]]|]; unfold rsum; cbn; lra|].
    destruct m as [[b1 b2]|].
    2: { intros [|i] k a; cbn; [intros [= <-] [= <-]|destruct i; discriminate]. split; [lra|]. now rewrite vscale_one. }
    destruct M as (M1 & M2 & M3). specialize (M1 eq_refl). set (W := nrm (P V0) (P V1) (P OP)).
    assert (L : nrm (P MM) (P OP) (P V0) = vscale (1 / 2) W) by (rewrite M1; apply nrm_left).
    assert (R : nrm (P MM) (P V1) (P OP) = vscale (1 / 2) W) by (rewrite M1; apply nrm_right).
    assert (L1 : b1 = true -> nrm (P V0) (P MM) (P N1) = vscale (1 / 4) W).
    { intros ->. rewrite <- nrm_rot, M2, nrm_right by reflexivity. rewrite <- nrm_rot, L, vscale_scale. f_equal. lra. }
    assert (L2 : b1 = true -> nrm (P N1) (P MM) (P OP) = vscale (1 / 4) W).
    { intros ->. rewrite M2, nrm_left by reflexivity. rewrite <- nrm_rot, L, vscale_scale. f_equal. lra. }
    assert (R1 : b2 = true -> nrm (P V1) (P N2) (P MM) = vscale (1 / 4) W).
    { intros ->. rewrite nrm_rot, M3, nrm_left by (destruct b1; reflexivity). rewrite <- nrm_rot, R, vscale_scale. f_equal. lra. }
    assert (R2 : b2 = true -> nrm (P N2) (P OP) (P MM) = vscale (1 / 4) W).
    { intros ->. rewrite M3, nrm_right by (destruct b1; reflexivity). rewrite <- nrm_rot, R, vscale_scale. f_equal. lra. }
    destruct b1, b2; intros i k a; (destruct i as [|[|[|[|i]]]]; cbn [kidsOf sharesOf nth_error]; try (intros E; destruct i; discriminate); try discriminate); intros [= <-] [= <-]; (split; [lra|]); cbn [nrmS]; auto.
    - now rewrite nrm_rot.
    - now rewrite nrm_rot, nrm_rot.
  Qed.
  (** newest vertex bisection *)
  Definition shapeS (k : stri) (r : nat) : shape :=
    let '(a, b, c) := k in match r with 0%nat => (P c, P a, P b) | 1%nat => (P b, P c, P a) | _ => (P a, P b, P c) end.
  Lemma kids_bisect b1 b2 k r : mids (Some (b1, b2)) -> In (k, r) (combine (kidsOf (Some (b1, b2))) (refsOf 0 (Some (b1, b2)))) -> bisection (P OP, P V0, P V1) (shapeS k r).
  Proof.
    intros (M1 & M2 & M3). specialize (M1 eq_refl).
    assert (L : bisection (P OP, P V0, P V1) (P MM, P OP, P V0)) by (rewrite M1; apply Left; constructor).
    assert (R : bisection (P OP, P V0, P V1) (P MM, P V1, P OP)) by (rewrite M1; apply Right; constructor).
    assert (L1 : b1 = true -> bisection (P OP, P V0, P V1) (P N1, P V0, P MM)) by (intros ->; rewrite M2 by reflexivity; apply Right, L).
    assert (L2 : b1 = true -> bisection (P OP, P V0, P V1) (P N1, P MM, P OP)) by (intros ->; rewrite M2 by reflexivity; apply Left, L).
    assert (R1 : b2 = true -> bisection (P OP, P V0, P V1) (P N2, P MM, P V1)) by (intros ->; rewrite M3 by (destruct b1; reflexivity); apply Left, R).
    assert (R2 : b2 = true -> bisection (P OP, P V0, P V1) (P N2, P OP, P MM)) by (intros ->; rewrite M3 by (destruct b1; reflexivity); apply Right, R).
    clear M1 M2 M3. destruct b1, b2; cbn [kidsOf refsOf combine]; intros H; repeat (destruct H as [H|H]; [inversion H; subst; cbn [shapeS]; auto|]); destruct H.
  Qed.
End Geometry.

(** ---- quality ---- *)
Section Quality.
  Local Open Scope R_scope.
  Ltac vec := apply pt_eq; unfold half, vadd, vsub, vscale, vcross, px, py, pz in *; cbn [fst snd] in *; field.
  Definition form (u v x y : point) : Prop :=
    exists c, (x = vscale c u /\ (y = vscale c v \/ y = vscale (- c) v)) \/ (x = vscale c v /\ (y = vscale c u \/ y = vscale (- c) u)) \/
              (x = vscale c (vadd u v) /\ (y = vscale c (vsub u v) \/ y = vscale (- c) (vsub u v))) \/
              (x = vscale c (vsub u v) /\ (y = vscale c (vadd u v) \/ y = vscale (- c) (vadd u v))).
  Ltac vec' := solve [vec].
  Ltac tryForm := first [left; split; [vec'|first [left; vec'|right; vec']] | right; left; split; [vec'|first [left; vec'|right; vec']] | right; right; left; split; [vec'|first [left; vec'|right; vec']] | right; right; right; split; [vec'|first [left; vec'|right; vec']]].
  Ltac tryC c := first [exists c; tryForm | exists (- c); tryForm | exists (c / 2); tryForm | exists (- c / 2); tryForm].
  Lemma form_next u v x y : form u v x y -> form u v (vscale (-1 / 2) (vadd x y)) (vscale (1 / 2) (vsub x y)) /\ form u v (vscale (1 / 2) (vsub y x)) (vscale (-1 / 2) (vadd x y)).
  Proof.
    intros (c & [(-> & [->| ->])|[(-> & [->| ->])|[(-> & [->| ->])|(-> & [->| ->])]]]).
    all: split; tryC c.
  Qed.
  Lemma bisection_form T T' : bisection T T' -> let '(a, p, q) := T in let '(a', p', q') := T' in form (vsub p a) (vsub q a) (vsub p' a') (vsub q' a').
  Proof.
    intros H. induction H as [[[a p] q]|T a p q H IH|T a p q H IH].
    1: { exists 1. left. split; [vec|left; vec]. }
    all: destruct T as [[a1 p1] q1]; destruct (form_next IH) as [F1 F2].
    - replace (vsub a (vscale (1 / 2) (vadd p q))) with (vscale (-1 / 2) (vadd (vsub p a) (vsub q a))) by vec.
      replace (vsub p (vscale (1 / 2) (vadd p q))) with (vscale (1 / 2) (vsub (vsub p a) (vsub q a))) by vec. exact F1.
    - replace (vsub a (vscale (1 / 2) (vadd p q))) with (vscale (-1 / 2) (vadd (vsub p a) (vsub q a))) by vec.
      replace (vsub q (vscale (1 / 2) (vadd p q))) with (vscale (1 / 2) (vsub (vsub q a) (vsub p a))) by vec. exact F2.
  Qed.
  (** in terms of the vectors *)
  Definition S3 (u v : point) : R := vnorm2 u + vnorm2 v + vnorm2 (vsub u v).
  Lemma sides_vec a p q : sides (a, p, q) = S3 (vsub p a) (vsub q a).
  Proof. unfold sides, S3, vnorm2, vsub, px, py, pz. cbn [fst snd]. ring. Qed.
  Lemma norm_nonneg u : 0 <= vnorm2 u.
  Proof. unfold vnorm2. nra. Qed.
  Lemma vnorm_scale c u : vnorm2 (vscale c u) = c * c * vnorm2 u.
  Proof. unfold vnorm2, vscale, px, py, pz. cbn [fst snd]. ring. Qed.
  Lemma parallelogram u v : vnorm2 (vadd u v) + vnorm2 (vsub u v) = 2 * vnorm2 u + 2 * vnorm2 v.
  Proof. unfold vnorm2, vadd, vsub, px, py, pz. cbn [fst snd]. ring. Qed.
  Lemma form_quality u v x y : form u v x y ->
    exists d, 0 <= d /\ vnorm2 (vcross x y) = d * d * vnorm2 (vcross u v) /\ 0 <= S3 x y <= 3 * d * S3 u v.
  Proof.
    intros F. assert (N0 : 0 <= S3 x y) by (unfold S3; pose proof (norm_nonneg x); pose proof (norm_nonneg y); pose proof (norm_nonneg (vsub x y)); lra).
    pose proof (norm_nonneg u) as Nu. pose proof (norm_nonneg v) as Nv. pose proof (norm_nonneg (vsub u v)) as Nd. pose proof (norm_nonneg (vadd u v)) as Na. pose proof (parallelogram u v) as PG.
    destruct F as (c & F). assert (C2 : 0 <= c * c) by nra.
    assert (D1 : forall w z, S3 (vscale c w) (vscale c z) = c * c * S3 w z). { intros w z. unfold S3. replace (vsub (vscale c w) (vscale c z)) with (vscale c (vsub w z)) by vec. rewrite !vnorm_scale. ring. }
    assert (D2 : forall w z, S3 (vscale c w) (vscale (- c) z) = c * c * (vnorm2 w + vnorm2 z + vnorm2 (vadd w z))). { intros w z. unfold S3. replace (vsub (vscale c w) (vscale (- c) z)) with (vscale c (vadd w z)) by vec. rewrite !vnorm_scale. ring. }
    assert (X1 : forall w z, vnorm2 (vcross (vscale c w) (vscale c z)) = (c * c) * (c * c) * vnorm2 (vcross w z)) by (intros; unfold vnorm2, vcross, vscale, px, py, pz; cbn [fst snd]; ring).
    assert (X2 : forall w z, vnorm2 (vcross (vscale c w) (vscale (- c) z)) = (c * c) * (c * c) * vnorm2 (vcross w z)) by (intros; unfold vnorm2, vcross, vscale, px, py, pz; cbn [fst snd]; ring).
    assert (X3 : vnorm2 (vcross v u) = vnorm2 (vcross u v)) by (unfold vnorm2, vcross, px, py, pz; cbn [fst snd]; ring).
    assert (X4 : vnorm2 (vcross (vadd u v) (vsub u v)) = 4 * vnorm2 (vcross u v)) by (unfold vnorm2, vcross, vadd, vsub, px, py, pz; cbn [fst snd]; ring).
    assert (X5 : vnorm2 (vcross (vsub u v) (vadd u v)) = 4 * vnorm2 (vcross u v)) by (unfold vnorm2, vcross, vadd, vsub, px, py, pz; cbn [fst snd]; ring).
    assert (Y1 : vnorm2 (vsub v u) = vnorm2 (vsub u v)) by (unfold vnorm2, vsub, px, py, pz; cbn [fst snd]; ring).
    assert (Y2 : vnorm2 (vadd v u) = vnorm2 (vadd u v)) by (unfold vnorm2, vadd, px, py, pz; cbn [fst snd]; ring).
    assert (Y3 : vnorm2 (vsub (vadd u v) (vsub u v)) = 4 * vnorm2 v) by (unfold vnorm2, vadd, vsub, px, py, pz; cbn [fst snd]; ring).
    assert (Y4 : vnorm2 (vsub (vsub u v) (vadd u v)) = 4 * vnorm2 v) by (unfold vnorm2, vadd, vsub, px, py, pz; cbn [fst snd]; ring).
    assert (Y5 : vnorm2 (vadd (vadd u v) (vsub u v)) = 4 * vnorm2 u) by (unfold vnorm2, vadd, vsub, px, py, pz; cbn [fst snd]; ring).
    assert (Y6 : vnorm2 (vadd (vsub u v) (vadd u v)) = 4 * vnorm2 u) by (unfold vnorm2, vadd, vsub, px, py, pz; cbn [fst snd]; ring).
    assert (M : forall A B, A <= B -> c * c * A <= c * c * B) by (intros; nra).
    destruct F as [(-> & [->| ->])|[(-> & [->| ->])|[(-> & [->| ->])|(-> & [->| ->])]]].
    1-4: exists (c * c); split; [exact C2|]; rewrite ?X1, ?X2, ?X3; (split; [reflexivity|]); split; [exact N0|]; rewrite ?D1, ?D2; unfold S3; rewrite ?Y1, ?Y2;
         replace (3 * (c * c) * (vnorm2 u + vnorm2 v + vnorm2 (vsub u v))) with (c * c * (3 * (vnorm2 u + vnorm2 v + vnorm2 (vsub u v)))) by ring; apply M; lra.
    all: exists (2 * (c * c)); split; [lra|]; rewrite ?X1, ?X2, ?X4, ?X5; (split; [ring|]); split; [exact N0|]; rewrite ?D1, ?D2; unfold S3; rewrite ?Y3, ?Y4, ?Y5, ?Y6;
         replace (3 * (2 * (c * c)) * (vnorm2 u + vnorm2 v + vnorm2 (vsub u v))) with (c * c * (6 * (vnorm2 u + vnorm2 v + vnorm2 (vsub u v)))) by ring; apply M; lra.
  Qed.
  Lemma bisection_quality T T' : bisection T T' -> qualityAtLeast (1 / 9) T T'.
  Proof.
    intros H. pose proof (bisection_form H) as F. destruct T as [[a p] q], T' as [[a' p'] q']. unfold qualityAtLeast. rewrite !sides_vec. unfold area2.
    destruct (form_quality F) as (d & D & E & L0 & L). rewrite E. set (A := vnorm2 (vcross (vsub p a) (vsub q a))). assert (NA : 0 <= A) by apply norm_nonneg.
    set (X := S3 (vsub p' a') (vsub q' a')) in *. set (Y := S3 (vsub p a) (vsub q a)) in *.
    assert (XX : X * X <= (3 * d * Y) * (3 * d * Y)) by nra.
    replace (d * d * A * (Y * Y)) with (1 / 9 * A * ((3 * d * Y) * (3 * d * Y))) by field. apply Rmult_le_compat_l; [lra|exact XX].
  Qed.
  Lemma bisection_trans T T' T'' : bisection T T' -> bisection T' T'' -> bisection T T''.
  Proof. intros H1 H2. induction H2; auto; [apply Left|apply Right]; auto. Qed.
End Quality.
