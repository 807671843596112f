(** Vocabulary for the assembly of potential operators. *)
From Coq Require Import Reals ZArith List Bool Arith.
Import ListNotations.
From Verif Require Import Base ArrayModel BoxModel QuadModel AccModel AsmModel AsmSpec DofListModel DofListSpec NumIntModel PotAsmModel.
Set Implicit Arguments.
Unset Strict Implicit.

Section Spec.
  Variable K : star_ring.
  Local Open Scope sr_scope.
  Variables Xl Bd Sh : Type.
  Variable I : ingredients K Xl Bd Sh.
  (** everything known about element e at the reference point x *)
  Definition everything (e : nat) (x : Xl) : slice K := fun f => Some (in_geometry I e f x).
  (** an evaluation point has a position and nothing else *)
  Definition position_ (p : point) : slice K := fun f => match f with Globals => Some (in_embed I p) | _ => None end.
  Definition jacobian (e : nat) (x : Xl) : K := match in_geometry I e IntegrationElements x with j :: _ => j | [] => 0 end.
  (** component c of the potential of the j-th shape function of element e at the point p, by the rule r:
      the sum over the quadrature points of integrand * Jacobian * weight *)
  Definition localPotential (r : rule K Xl) (p : point) (e : nat) (sel : dofSelection) (j c : nat) : K :=
    bsum r (fun xw => let x := fst xw in
      in_functor I (everything e x) (in_kernel I (position_ p) (everything e x)) (in_trans I (in_basis I (in_shapeset I e) sel x) (everything e x) j) c
      * jacobian e x * snd xw).
  (** transformations, kernels and integrand use only the data they have declared, and of the point only its position *)
  Definition onlyUses {A} (deps : depSet) (f : slice K -> A) : Prop := forall s s', (forall x, In x deps -> s x = s' x) -> f s = f s'.
  Definition wellMade : Prop :=
    (forall b j, onlyUses (in_transDeps I) (fun s => in_trans I b s j)) /\
    (forall p, onlyUses (in_kernelDeps I) (in_kernel I p)) /\ (forall s, onlyUses (in_kernelPointDeps I) (fun p => in_kernel I p s)) /\
    (forall f, In f (in_kernelPointDeps I) -> f = Globals) /\
    (forall k t c, onlyUses (in_functorDeps I) (fun s => in_functor I s k t c)).
  (** evaluating one shape function gives the same as evaluating all of them *)
  Definition consistentShapesets : Prop := forall sh j x s, j < in_dofs I sh -> in_trans I (in_basis I sh (Some j) x) s 0 = in_trans I (in_basis I sh None x) s j.
  Definition selectedDofs (e : nat) (sel : dofSelection) : nat := match sel with None => in_dofs I (in_shapeset I e) | Some _ => 1%nat end.

  Variable ranges : list bracket.
  Variable g : sgeom.
  Variable rules : sdesc -> rule K Xl.
  (** the rule chosen for point number i and element e *)
  Definition ruleFor (nominal : R) (i e : nat) (x : point) (r : rule K Xl) : Prop :=
    nth_error (in_points I) i = Some x /\ exists d, pDescriptor ranges g x e nominal = Ok d /\ r = rules d.
  (** m holds the potentials at point number i of the selected functions of element e, computed by the rule chosen for them *)
  Definition contribution (nominal : R) (sel : dofSelection) (i e : nat) (m : mat K) : Prop :=
    exists x r, ruleFor nominal i e x r /\ m_rows m = in_components I /\ m_cols m = selectedDofs e sel /\
      forall c j, c < in_components I -> j < selectedDofs e sel -> m_at m c j = localPotential r x e sel j c.
  (** the same, component c only *)
  Definition contributionRow (nominal : R) (c i e : nat) (m : mat K) : Prop :=
    exists x r, ruleFor nominal i e x r /\ m_rows m = 1%nat /\ m_cols m = selectedDofs e None /\
      forall j, j < selectedDofs e None -> m_at m 0 j = localPotential r x e None j c.
  Definition canChoose (nominal : R) (i e : nat) : Prop := exists x r, ruleFor nominal i e x r.
End Spec.
(** o enumerates the members of a list, in any order *)
Definition enumeratesSet {A} (o : list A -> list A) : Prop := forall l a, In a (o l) <-> In a l.
(** m is the smallest of the numbers in l, or top if there are none below it *)
Definition smallest (top : R) (l : list R) (m : R) : Prop := (m = top \/ In m l) /\ (m <= top)%R /\ forall x, In x l -> (m <= x)%R.
