(** Real and complex scalars as star rings (exact real arithmetic; this file and
    its users rely on the standard library's axioms for the reals). *)
From Coq Require Import Reals Lra.
From Verif Require Import Base.
Set Implicit Arguments.

Lemma R_ring_th : ring_theory 0%R 1%R Rplus Rmult Rminus Ropp (@eq R).
Proof. constructor; intros; ring. Qed.
Definition Rsr : star_ring :=
  @StarRing R 0%R 1%R Rplus Rmult Rminus Ropp (fun x => x) R_ring_th
    (fun _ _ => eq_refl) (fun _ _ => eq_refl) eq_refl (fun _ => eq_refl).

Definition cpx := (R * R)%type.
Definition c_add (x y : cpx) : cpx := (fst x + fst y, snd x + snd y)%R.
Definition c_sub (x y : cpx) : cpx := (fst x - fst y, snd x - snd y)%R.
Definition c_opp (x : cpx) : cpx := (- fst x, - snd x)%R.
Definition c_mul (x y : cpx) : cpx :=
  (fst x * fst y - snd x * snd y, fst x * snd y + snd x * fst y)%R.
Definition c_conj (x : cpx) : cpx := (fst x, - snd x)%R.
Lemma c_ring_th : ring_theory (0,0)%R (1,0)%R c_add c_mul c_sub c_opp (@eq cpx).
Proof.
  constructor; intros; apply injective_projections;
  unfold c_add, c_mul, c_sub, c_opp; cbn [fst snd]; ring.
Qed.
Lemma c_conj_add x y : c_conj (c_add x y) = c_add (c_conj x) (c_conj y).
Proof. apply injective_projections; unfold c_conj, c_add; cbn [fst snd]; ring. Qed.
Lemma c_conj_mul x y : c_conj (c_mul x y) = c_mul (c_conj x) (c_conj y).
Proof. apply injective_projections; unfold c_conj, c_mul; cbn [fst snd]; ring. Qed.
Lemma c_conj_one : c_conj (1,0)%R = (1,0)%R.
Proof. apply injective_projections; unfold c_conj; cbn [fst snd]; ring. Qed.
Lemma c_conj_invol x : c_conj (c_conj x) = x.
Proof. apply injective_projections; unfold c_conj; cbn [fst snd]; ring. Qed.
Definition CR : star_ring :=
  @StarRing cpx (0,0)%R (1,0)%R c_add c_mul c_sub c_opp c_conj c_ring_th
    c_conj_add c_conj_mul c_conj_one c_conj_invol.

(** |z|^2 *)
Definition cabs2 (z : cpx) : R := (fst z * fst z + snd z * snd z)%R.
Lemma cabs2_nonneg z : (0 <= cabs2 z)%R.
Proof. unfold cabs2. nra. Qed.
Lemma re_conj_mul (z : CR) : fst (mul (conj z) z) = cabs2 z.
Proof. destruct z as [a b]. cbn. unfold cabs2. cbn. ring. Qed.

Lemma fst_bsum A (l : list A) (f : A -> CR) :
  fst (bsum l f) = bsum (K := Rsr) l (fun a => fst (f a)).
Proof. induction l as [|a l IH]; [reflexivity|]. rewrite !bsum_cons. cbn. rewrite IH. reflexivity. Qed.

Lemma bsum_nonneg A (l : list A) (f : A -> R) :
  (forall a, In a l -> (0 <= f a)%R) -> (0 <= bsum (K := Rsr) l f)%R.
Proof.
  induction l as [|a l IH]; intros H; [apply Rle_refl|].
  rewrite bsum_cons. cbn. pose proof (H a (or_introl eq_refl)).
  assert (0 <= bsum (K := Rsr) l f)%R by (apply IH; intros; apply H; now right). lra.
Qed.
