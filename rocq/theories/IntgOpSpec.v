(** The bilinear forms of the scalar boundary operators, discretised by a quadrature rule. *)
From Coq Require Import List Arith Bool.
From Verif Require Import Base CxRing AsmModel ArrayModel IntgModel IntgSpec IntgOpModel.
Import ListNotations.
Set Implicit Arguments.

Section Spec.
  Variable K : star_ring.
  Local Open Scope sr_scope.
  (** (a x b)_d, indices modulo 3; surface curl = n x (J^{-T} grad). *)
  Definition cross (a b : nat -> K) (d : nat) : K :=
    a ((d + 1) mod 3) * b ((d + 2) mod 3) - a ((d + 2) mod 3) * b ((d + 1) mod 3).
  Definition curlAt (E : element K) (B : basis K) (f p : nat) : nat -> K :=
    cross (fun i => g_normal (e_geom E) i p) (fun i => bsum [0; 1]%nat (fun j => e_jit E i j p * b_deriv B j f p)).
  (** The integrand at test point p and trial point q. *)
  Definition form (op : operator K) (testE trialE : element K) (testB trialB : basis K) (k : K) (f g p q : nat) : K :=
    let values := conj (b_value testB f p) * b_value trialB g q in
    let curls := bsum [0; 1; 2]%nat (fun d => conj (curlAt testE testB f p d) * curlAt trialE trialB g q d) in
    let normals := bsum [0; 1; 2]%nat (fun d => g_normal (e_geom testE) d p * g_normal (e_geom trialE) d q) in
    match op with
    | Value => k * values
    | LaplaceHypersingular => k * curls
    | HelmholtzHypersingular kappa => k * curls + kappa * kappa * k * normals * values
    end.
  Definition tensorForm op testE trialE testB trialB (k : nat -> nat -> K) (testW trialW : list K) f g : K :=
    bsum (seq 0 (length testW)) (fun p => bsum (seq 0 (length trialW)) (fun q =>
      (nth p (g_ie (e_geom testE)) 0 * nth p testW 0) * (nth q (g_ie (e_geom trialE)) 0 * nth q trialW 0) *
      form op testE trialE testB trialB (k p q) f g p q)).
  Definition pairForm op testE trialE testB trialB (k : nat -> nat -> K) (w : list K) f g : K :=
    bsum (seq 0 (length w)) (fun p =>
      (nth p (g_ie (e_geom testE)) 0 * nth p (g_ie (e_geom trialE)) 0 * nth p w 0) *
      form op testE trialE testB trialB (k p p) f g p p).
  (** Data on one element for a rule of [n] points: real weights, integration elements and normals, at least one function. *)
  Record onElement (E : element K) (B : basis K) (w : list K) : Prop := {
    oe_dofs : (0 < b_dofs B)%nat;
    oe_points : (0 < length w)%nat /\ b_points B = length w /\ length (g_ie (e_geom E)) = length w;
    oe_real : reals w /\ reals (g_ie (e_geom E)) /\ forall d p, conj (g_normal (e_geom E) d p) = g_normal (e_geom E) d p
  }.
End Spec.
Arguments form {K}. Arguments tensorForm {K}. Arguments pairForm {K}.
