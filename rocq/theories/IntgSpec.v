(** What a local matrix is: a sum over quadrature points, independent of the code in IntgModel.
    Only the array reads [a3], [a4] and the records are taken from there. *)
From Coq Require Import List Arith Bool.
From Verif Require Import Base CxRing AsmModel ArrayModel IntgModel.
Import ListNotations.
Set Implicit Arguments.

Section Spec.
  Variable K : star_ring.
  Local Open Scope sr_scope.

  (** A single kernel serves every transformation. *)
  Definition kernelsFor {A} (n : nat) (ks : list A) : list A := match ks with [k] => repeat k n | _ => ks end.

  (** sum_t (sum_d conj(test_t(d, f, p)) trial_t(d, g, q)) K_t *)
  Definition integrand (tests trials : list (arr3 K)) (kernelValues : list K) (f g p q : nat) : K :=
    bsum (combine (combine tests trials) kernelValues) (fun x =>
      bsum (seq 0 (x0 (fst (fst x)))) (fun d => conj (a3 (fst (fst x)) d f p) * a3 (snd (fst x)) d g q) * snd x).

  (** The entry for test function f and trial function g: tensor rule (points p on the test element, q on the trial element). *)
  Definition tensorEntry (tests trials : list (arr3 K)) (kernels : list (arr4 K)) (testIE trialIE testW trialW : list K) (f g : nat) : K :=
    bsum (seq 0 (length testW)) (fun p => bsum (seq 0 (length trialW)) (fun q =>
      (nth p testIE 0 * nth p testW 0) * (nth q trialIE 0 * nth q trialW 0) *
      integrand tests trials (map (fun k => a4 k 0 0 p q) (kernelsFor (length tests) kernels)) f g p q)).
  (** The entry with a rule given by pairs of points. *)
  Definition pairEntry (tests trials : list (arr3 K)) (kernels : list (arr3 K)) (testIE trialIE w : list K) (f g : nat) : K :=
    bsum (seq 0 (length w)) (fun p =>
      (nth p testIE 0 * nth p trialIE 0 * nth p w 0) *
      integrand tests trials (map (fun k => a3 k 0 0 p) (kernelsFor (length tests) kernels)) f g p p).

  Local Close Scope sr_scope.
  (** The data an element pair supplies: [dofs] functions at [pts] points, any positive number of components. *)
  Definition values (dofs pts : nat) (vs : list (arr3 K)) : Prop :=
    vs <> [] /\ Forall (fun v => x1 v = dofs /\ x2 v = pts /\ 0 < x0 v /\ length (st3 v) = (x0 v * dofs * pts)%nat) vs.
  Definition matching (tests trials : list (arr3 K)) : Prop := Forall2 (fun a b => x0 a = x0 b) tests trials.
  Definition grid4 (tp rp : nat) (ks : list (arr4 K)) : Prop :=
    Forall (fun k => y0 k = 1 /\ y1 k = 1 /\ y2 k = tp /\ y3 k = rp /\ length (st4 k) = (tp * rp)%nat) ks.
  Definition grid3 (n : nat) (ks : list (arr3 K)) : Prop :=
    Forall (fun k => x0 k = 1 /\ x1 k = 1 /\ x2 k = n /\ length (st3 k) = n) ks.
  (** One kernel, or one per transformation. *)
  Definition kernelCount (n m : nat) : Prop := m = 1 \/ m = n.
  Definition reals (l : list K) : Prop := Forall (fun x => conj x = x) l.

  Record tensorData (testGeom trialGeom : geom K) (tests trials : list (arr3 K)) (kernels : list (arr4 K)) (testW trialW : list K)
      (rows cols : nat) : Prop := {
    td_test : values rows (length testW) tests;
    td_trial : values cols (length trialW) trials;
    td_match : matching tests trials;
    td_kernels : grid4 (length testW) (length trialW) kernels;
    td_dofs : 0 < rows /\ 0 < cols;
    td_points : 0 < length testW /\ 0 < length trialW;
    td_ie : length (g_ie testGeom) = length testW /\ length (g_ie trialGeom) = length trialW;
    td_real : reals (g_ie testGeom) /\ reals (g_ie trialGeom) /\ reals testW /\ reals trialW
  }.
  Record pairData (testGeom trialGeom : geom K) (tests trials : list (arr3 K)) (w : list K) (rows cols : nat) : Prop := {
    pd_test : values rows (length w) tests;
    pd_trial : values cols (length w) trials;
    pd_match : matching tests trials;
    pd_dofs : 0 < rows /\ 0 < cols;
    pd_points : 0 < length w;
    pd_ie : length (g_ie testGeom) = length w /\ length (g_ie trialGeom) = length w;
    pd_real : reals (g_ie testGeom) /\ reals (g_ie trialGeom) /\ reals w
  }.
  (** [r] is the rows x cols matrix with the given entries. *)
  Definition isMatrix (r : res (mat K)) (rows cols : nat) (entry : nat -> nat -> K) : Prop :=
    exists m, r = Ok m /\ m_rows m = rows /\ m_cols m = cols /\ forall f g, f < rows -> g < cols -> m_at m f g = entry f g.
End Spec.
Arguments reals {K}. Arguments tensorEntry {K}. Arguments pairEntry {K}. Arguments integrand {K}.
(** Real data used where complex data are expected. *)
Definition complexify {F : star_ring} (v : arr3 F) : arr3 (Cx F) := Arr3 (x0 v) (x1 v) (x2 v) (map (@cre F) (st3 v)).
