(** The complex numbers over a commutative ring (nothing here models repository code): pairs (real part,
    imaginary part), as in std::complex. *)
From Coq Require Import List Arith Ring.
From Verif Require Import Base.
Set Implicit Arguments.

Section Cx.
  Variable F : star_ring.
  Add Ring Fring : (sr_ring F).
  Local Open Scope sr_scope.
  Definition cxT : Type := (F * F)%type.
  Definition cx_add (x y : cxT) : cxT := (fst x + fst y, snd x + snd y).
  Definition cx_sub (x y : cxT) : cxT := (fst x - fst y, snd x - snd y).
  Definition cx_opp (x : cxT) : cxT := (- fst x, - snd x).
  Definition cx_mul (x y : cxT) : cxT := (fst x * fst y - snd x * snd y, fst x * snd y + snd x * fst y).
  Definition cx_conj (x : cxT) : cxT := (fst x, - snd x).
  Lemma cx_ring_th : ring_theory (0, 0) (1, 0) cx_add cx_mul cx_sub cx_opp (@eq cxT).
  Proof. constructor; intros; apply injective_projections; unfold cx_add, cx_mul, cx_sub, cx_opp; cbn [fst snd]; ring. Qed.
  Lemma cx_conj_add x y : cx_conj (cx_add x y) = cx_add (cx_conj x) (cx_conj y).
  Proof. apply injective_projections; unfold cx_conj, cx_add; cbn [fst snd]; ring. Qed.
  Lemma cx_conj_mul x y : cx_conj (cx_mul x y) = cx_mul (cx_conj x) (cx_conj y).
  Proof. apply injective_projections; unfold cx_conj, cx_mul; cbn [fst snd]; ring. Qed.
  Lemma cx_conj_one : cx_conj (1, 0) = (1, 0).
  Proof. apply injective_projections; unfold cx_conj; cbn [fst snd]; ring. Qed.
  Lemma cx_conj_invol x : cx_conj (cx_conj x) = x.
  Proof. apply injective_projections; unfold cx_conj; cbn [fst snd]; ring. Qed.
  Definition Cx : star_ring :=
    @StarRing cxT (0, 0) (1, 0) cx_add cx_mul cx_sub cx_opp cx_conj cx_ring_th cx_conj_add cx_conj_mul cx_conj_one cx_conj_invol.
  (** A real number as a complex one. *)
  Definition cre (x : F) : Cx := (x, 0).
  Lemma cx_fst_bsum A (l : list A) (f : A -> Cx) : fst (bsum l f) = bsum l (fun a => fst (f a)).
  Proof. induction l as [|a l IH]; [reflexivity|]. rewrite !bsum_cons. cbn [add Cx cx_add fst]. rewrite <- IH. reflexivity. Qed.
  Lemma cx_snd_bsum A (l : list A) (f : A -> Cx) : snd (bsum l f) = bsum l (fun a => snd (f a)).
  Proof. induction l as [|a l IH]; [reflexivity|]. rewrite !bsum_cons. cbn [add Cx cx_add snd]. rewrite <- IH. reflexivity. Qed.
End Cx.
