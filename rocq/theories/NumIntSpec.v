(** Vocabulary: the local matrix of a pair of elements. *)
From Coq Require Import List Bool Arith.
Import ListNotations.
From Verif Require Import Base ArrayModel NumIntModel.
Set Implicit Arguments.
Unset Strict Implicit.

Section Spec.
Variables V B T Kv M Sh : Type.
(** the complete geometrical data of an element *)
Definition complete (whole : field -> V) : gdata V := fun f => Some (whole f).
(** f looks at no field of the geometrical data outside deps *)
Definition readsOnly {A} (deps : depSet) (f : gdata V -> A) : Prop :=
  forall g g' : gdata V, (forall x, In x deps -> g x = g' x) -> f g = f g'.
(** the transformations, kernels and integral look only at the data they have asked for *)
Definition honest (s : setup V B T Kv M Sh) : Prop :=
  (forall b, readsOnly (testTransDeps s) (testTrans s b)) /\ (forall b, readsOnly (trialTransDeps s) (trialTrans s b)) /\
  (forall g, readsOnly (kernelTestDeps s) (fun t => kernels s t g)) /\ (forall g, readsOnly (kernelTrialDeps s) (fun r => kernels s g r)) /\
  (forall g a b k, readsOnly (integralTestDeps s) (fun t => integral s t g a b k)) /\ (forall g a b k, readsOnly (integralTrialDeps s) (fun r => integral s g r a b k)).
(** what the local matrix of test element e and trial element f is: a function of the two elements,
    the shapesets and the selected dofs *)
Definition localMatrix (s : setup V B T Kv M Sh) (e f : nat) (testSh : Sh) (testDofs : dofSelection) (trialSh : Sh) (trialDofs : dofSelection) : M :=
  let t := complete (testElement s e) in let r := complete (trialElement s f) in
  integral s t r (testTrans s (basisEval s TEST testSh testDofs) t) (trialTrans s (basisEval s TRIAL trialSh trialDofs) r) (kernels s t r).
End Spec.
Section PotentialSpec.
Variables V B T Kv M Sh : Type.
Definition phonest (s : psetup V B T Kv M Sh) : Prop :=
  (forall b, readsOnly (ptransDeps s) (ptrans s b)) /\
  (forall g, readsOnly (pkernelPointDeps s) (fun t => pkernels s t g)) /\ (forall g, readsOnly (pkernelTrialDeps s) (fun r => pkernels s g r)) /\
  (forall a k, readsOnly (pintegralDeps s) (fun r => pintegral s r a k)).
(** the local matrix of point i and element e; whole describes all that could be asked for at the point *)
Definition pointMatrix (s : psetup V B T Kv M Sh) (i e : nat) (sh : Sh) (dof : dofSelection) (whole : nat -> field -> V) : M :=
  let r := complete (element s e) in pintegral s r (ptrans s (pbasis s sh dof) r) (pkernels s (complete (whole i)) r).
End PotentialSpec.
