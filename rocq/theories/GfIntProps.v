(** C111: GridFunction.integrate *)
From Coq Require Import Reals List Arith Bool Lra Lia.
Import ListNotations.
From Verif Require Import GfIntModel.
Set Implicit Arguments.
Local Open Scope R_scope.
Local Open Scope bool_scope.

(** specification: the quadrature sum over elements and points *)
Definition total {E} (elements : list E) (npoints : nat) (f : E -> nat -> cplx) : cplx :=
  fold_right (fun e acc => cadd (fold_right (fun p acc => cadd (f e p) acc) (0, 0) (seq 0 npoints)) acc) (0, 0) elements.

Lemma cadd_0 a : cadd (0, 0) a = a.
Proof. destruct a as [x y]. unfold cadd. cbn. f_equal; ring. Qed.
Lemma cadd_assoc a b c : cadd a (cadd b c) = cadd (cadd a b) c.
Proof. unfold cadd. cbn. f_equal; ring. Qed.
Lemma cadd_comm a b : cadd a b = cadd b a.
Proof. unfold cadd. f_equal; ring. Qed.
Lemma fold_cadd l : forall a, fold_left cadd l a = cadd a (fold_right cadd (0, 0) l).
Proof. induction l as [|x l IH]; intros a; cbn [fold_left fold_right]; [now rewrite cadd_comm, cadd_0|]. rewrite IH. now rewrite cadd_assoc. Qed.
Lemma csum_spec n f : csum n f = fold_right (fun p acc => cadd (f p) acc) (0, 0) (seq 0 n).
Proof. unfold csum. rewrite fold_cadd, cadd_0. generalize (seq 0 n). induction l as [|x l IH]; cbn; [reflexivity|]. now rewrite IH. Qed.

Section S.
Variables (E : Type) (values : E -> nat -> nat -> cplx) (npoints : nat) (weight : nat -> R) (ie : E -> nat -> R).
Notation contribution k := (fun e p => cscale (ie e p) (cscale (weight p) (values e k p))).
(** real scalar functions *)
Theorem C111_integral_partial (elements : list E) :
  exists r, integrate 1 false values npoints weight ie elements = Some r /\ nd_shape r = [1; 1]%nat /\
    nd_at r [0; 0]%nat = total elements npoints (contribution 0%nat).
Proof.
  unfold integrate.
  assert (H : forall l res, nd_shape res = [1; 1]%nat -> nd_complex res = false ->
    exists r, fold_left (fun acc e => match acc with None => None | Some res => npIadd res (elementSum 1 false values npoints weight ie e) end) l (Some res) = Some r /\
      nd_shape r = [1; 1]%nat /\ nd_at r [0; 0]%nat = cadd (nd_at res [0; 0]%nat) (total l npoints (contribution 0%nat))).
  { induction l as [|e l IH]; intros res SH CX; cbn [fold_left].
    - exists res. split; [reflexivity|]. split; [exact SH|]. cbn [total fold_right]. now rewrite cadd_comm, cadd_0.
    - unfold npIadd at 2. rewrite SH. cbn [nd_shape elementSum nd_complex].
      change (broadcast [1; 1]%nat [1%nat]) with (Some [1; 1]%nat). cbn [shapeEqb]. rewrite CX. cbn [andb negb].
      destruct (IH (NdArray false [1; 1]%nat (fun i => cadd (nd_at res (operandIndex [1; 1]%nat i)) (nd_at (elementSum 1 false values npoints weight ie e) (operandIndex [1%nat] i)))) eq_refl eq_refl) as (r & A & B & C).
      exists r. split; [exact A|]. split; [exact B|]. rewrite C. cbn [nd_at]. change (operandIndex [1; 1]%nat [0; 0]%nat) with [0; 0]%nat. change (operandIndex [1%nat] [0; 0]%nat) with [0%nat].
      unfold elementSum. cbn [nd_at nth]. rewrite csum_spec. cbn [total fold_right]. now rewrite cadd_assoc. }
  destruct (H elements (npZeros [1; 1]%nat) eq_refl eq_refl) as (r & A & B & C). exists r. split; [exact A|]. split; [exact B|]. rewrite C. apply cadd_0.
Qed.
(** vector-valued functions, and complex functions, on any grid with elements: an exception *)
Theorem C111_integral_refuted components isComplex e elements : (2 <= components)%nat \/ isComplex = true ->
  integrate components isComplex values npoints weight ie (e :: elements) = None.
Proof.
  intros H. unfold integrate. cbn [fold_left].
  assert (N : npIadd (npZeros [components; 1%nat]) (elementSum components isComplex values npoints weight ie e) = None).
  { unfold npIadd. cbn [nd_shape npZeros elementSum nd_complex]. unfold broadcast. cbn [rev app broadcastRev].
    destruct (Nat.eqb_spec 1 components) as [C|C].
    - destruct H as [H|H]; [lia|]. cbn [option_map rev app]. rewrite H. cbn [andb negb]. now rewrite andb_false_r.
    - cbn [Nat.eqb option_map rev app]. unfold shapeEqb. destruct (list_eq_dec Nat.eq_dec [components; components] [components; 1%nat]) as [Q|Q]; [|reflexivity]. injection Q as Q. congruence. }
  rewrite N. induction elements as [|x l IH]; [reflexivity|]. cbn [fold_left]. exact IH.
Qed.
End S.
Print Assumptions C111_integral_partial.
Print Assumptions C111_integral_refuted.
Example c111_case : exists r, integrate 1 false (fun (e : nat) _ _ => (INR e, 0)) 2 (fun _ => 1 / 2) (fun _ _ => 3) [1%nat; 2%nat] = Some r /\ fst (nd_at r [0; 0]%nat) = 9.
Proof.
  destruct (C111_integral_partial (fun (e : nat) _ _ => (INR e, 0)) 2 (fun _ => 1 / 2) (fun _ _ => 3) [1%nat; 2%nat]) as (r & A & _ & C). exists r. split; [exact A|]. rewrite C.
  cbn [total fold_right seq cadd cscale fst snd INR]. lra.
Qed.
