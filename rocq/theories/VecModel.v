(** Geometry of a triangle in space, shape function transformations, Raviart-Thomas and Nedelec
    shapesets, and evaluation of grid functions.
    /repo/lib/grid/concrete_geometry.hpp, /repo/lib/fiber/{hdiv,hcurl}_function_value_functor.hpp,
    surface_{grad,curl,div}_3d_functor.hpp, hcurl_surface_curl_functor.hpp, nedelec_0_shapeset.hpp,
    raviart_thomas_0_shapeset.hpp, /repo/cython/bempp/core/space/local_evaluator.hpp,
    /repo/python/bempp/api/assembly/grid_function.py 219-230.
    Numbers are reals.  Dune (not part of the repository) supplies the map from the reference
    triangle, its Jacobian, integration element and pseudo-inverse, and the reference
    Raviart-Thomas functions; they are modelled by their documented values. *)
From Coq Require Import Reals Lra.
From Verif Require Import Base ComplexR SegModel AsmModel SpaceModel.
Set Implicit Arguments.
Unset Strict Implicit.
Local Open Scope R_scope.

Record vec := V { vx : R; vy : R; vz : R }.
Definition vadd (a b : vec) : vec := V (vx a + vx b) (vy a + vy b) (vz a + vz b).
Definition vsub (a b : vec) : vec := V (vx a - vx b) (vy a - vy b) (vz a - vz b).
Definition vscale (c : R) (a : vec) : vec := V (c * vx a) (c * vy a) (c * vz a).
Definition dot (a b : vec) : R := vx a * vx b + vy a * vy b + vz a * vz b.
Definition cross (a b : vec) : vec :=
  V (vy a * vz b - vz a * vy b) (vz a * vx b - vx a * vz b) (vx a * vy b - vy a * vx b).
Definition vzero : vec := V 0 0 0.

(** corners of a triangle *)
Record tri := Tri { c0 : vec; c1 : vec; c2 : vec }.
(** Dune: image of the reference point (x, y) *)
Definition globalPoint (T : tri) (q : R * R) : vec :=
  vadd (c0 T) (vadd (vscale (fst q) (vsub (c1 T) (c0 T))) (vscale (snd q) (vsub (c2 T) (c0 T)))).
(** Dune: rows of jacobianTransposed *)
Definition jt (T : tri) (a : nat) : vec := match a with O => vsub (c1 T) (c0 T) | _ => vsub (c2 T) (c0 T) end.
(** Dune: determinant of jacobianTransposed * jacobian *)
Definition gramDet (T : tri) : R :=
  dot (jt T 0) (jt T 0) * dot (jt T 1) (jt T 1) - dot (jt T 0) (jt T 1) * dot (jt T 0) (jt T 1).
(** Dune: integrationElement; concrete_geometry.hpp 204-222 uses the one at the origin everywhere *)
Definition integrationElement (T : tri) : R := sqrt (gramDet T).
(** Dune: columns of jacobianInverseTransposed = J (J^T J)^-1 *)
Definition jit (T : tri) (a : nat) : vec :=
  match a with
  | O => vscale (/ gramDet T) (vsub (vscale (dot (jt T 1) (jt T 1)) (jt T 0)) (vscale (dot (jt T 0) (jt T 1)) (jt T 1)))
  | _ => vscale (/ gramDet T) (vsub (vscale (dot (jt T 0) (jt T 0)) (jt T 1)) (vscale (dot (jt T 0) (jt T 1)) (jt T 0)))
  end.
(** concrete_geometry.hpp 408-454 calculateNormals, cdim = 3 *)
Definition normal (T : tri) : vec :=
  let n := V (vy (jt T 0) * vz (jt T 1) - vz (jt T 0) * vy (jt T 1))
             (vz (jt T 0) * vx (jt T 1) - vx (jt T 0) * vz (jt T 1))
             (vx (jt T 0) * vy (jt T 1) - vy (jt T 0) * vx (jt T 1)) in
  let sum := 0 + vx n * vx n + vy n * vy n + vz n * vz n in
  let invLength := 1 / sqrt sum in
  V (vx n * invLength) (vy n * invLength) (vz n * invLength).

(** ---- transformations; [b c] is component c of the value, [d c a] its derivative in direction a *)
(** hdiv_function_value_functor.hpp 45-57 *)
Definition hdivValue (T : tri) (b : nat -> R) : vec :=
  let at_ (f : vec -> R) := (f (jt T 0) * b 0%nat + f (jt T 1) * b 1%nat) / integrationElement T in
  V (at_ vx) (at_ vy) (at_ vz).
(** surface_div_3d_functor.hpp 46-55 *)
Definition surfaceDiv (T : tri) (d : nat -> nat -> R) : R := (d 0%nat 0%nat + d 1%nat 1%nat) / integrationElement T.
(** hcurl_function_value_functor.hpp 45-57 *)
Definition hcurlValue (T : tri) (b : nat -> R) : vec :=
  let at_ (f : vec -> R) := f (jit T 0) * b 0%nat + f (jit T 1) * b 1%nat in
  V (at_ vx) (at_ vy) (at_ vz).
(** hcurl_surface_curl_functor.hpp 46-82: derivative = JIT * referenceDerivative * JIT^T *)
Definition hcurlCurl (T : tri) (d : nat -> nat -> R) : R :=
  let J (r : nat) (a : nat) := match r with O => vx (jit T a) | S O => vy (jit T a) | _ => vz (jit T a) end in
  let M (r : nat) (a : nat) := J r 0%nat * d 0%nat a + J r 1%nat * d 1%nat a in
  let D (r s : nat) := M r 0%nat * J s 0%nat + M r 1%nat * J s 1%nat in
  let curl0 := D 2%nat 1%nat - D 1%nat 2%nat in
  let curl1 := D 0%nat 2%nat - D 2%nat 0%nat in
  let curl2 := D 1%nat 0%nat - D 0%nat 1%nat in
  curl0 * vx (normal T) + curl1 * vy (normal T) + curl2 * vz (normal T).
(** surface_grad_3d_functor.hpp 47-66; [d a] is the derivative in direction a *)
Definition surfaceGrad (T : tri) (d : nat -> R) : vec :=
  let at_ (f : vec -> R) := d 0%nat * f (jit T 0) + d 1%nat * f (jit T 1) in
  V (at_ vx) (at_ vy) (at_ vz).
(** surface_curl_3d_functor.hpp 47-72 *)
Definition surfaceCurl (T : tri) (d : nat -> R) : vec :=
  let v := surfaceGrad T d in let n := normal T in
  V (vy n * vz v - vz n * vy v) (vz n * vx v - vx n * vz v) (vx n * vy v - vy n * vx v).

(** ---- shapesets ---- *)
(** Dune::RT02DLocalBasis: function k at (x, y) *)
Definition rtValue (k : nat) (q : R * R) (c : nat) : R :=
  let (x, y) := q in
  match k, c with
  | O, O => x | O, _ => y - 1
  | S O, O => x - 1 | S O, _ => y
  | _, O => x | _, _ => y
  end.
(** its Jacobian: the identity *)
Definition rtDeriv (k : nat) (q : R * R) (c a : nat) : R := if Nat.eqb c a then 1 else 0.
(** nedelec_0_shapeset.hpp 54-88 *)
Definition ncValue (k : nat) (q : R * R) (c : nat) : R :=
  match c with O => - rtValue k q 1%nat | _ => rtValue k q 0%nat end.
Definition ncDeriv (k : nat) (q : R * R) (c a : nat) : R :=
  match c with O => - rtDeriv k q 1%nat a | _ => rtDeriv k q 0%nat a end.

(** ---- evaluation ---- *)
(** grid_function.py 224-228: coefficients[dof] * weight, or 0 * weight *)
Definition localCoefficients (m : dofmap Rsr) (u : list R) (e : Z) : option (list R) :=
  ds <- zget (dm_l2g m) e ;;
  ws <- zget (dm_w m) e ;;
  cs <- oseq (map (fun d => if (0 <=? d)%Z then nth_error u (Z.to_nat d) else Some 0) ds) ;;
  if (length cs =? length ws)%nat then Some (map (fun p : R * Rsr => fst p * snd p) (combine cs ws)) else None.
(** local_evaluator.hpp 51-56: values += functionValues(dim, f, p) * localCoefficients(f), f < 3 *)
Definition sumShapes (values : nat -> vec) (cs : list R) (n : nat) : option vec :=
  fold_left (fun acc f => v <- acc ;; c <- nth_error cs f ;; Some (vadd v (vscale c (values f)))) (seq 0 n) (Some vzero).
(** corners of an element (getCorners) *)
Definition cornersOf (pos : Z -> vec) (e : selt) : option tri :=
  match s_verts e with [a; b; c] => Some (Tri (pos a) (pos b) (pos c)) | _ => None end.
(** GridFunction.evaluate on spaces RT, RWG *)
Definition evaluateHdiv (pos : Z -> vec) (m : dofmap Rsr) (u : list R) (e : selt) (q : R * R) : option vec :=
  T <- cornersOf pos e ;; cs <- localCoefficients m u (s_index e) ;;
  sumShapes (fun k => hdivValue T (rtValue k q)) cs 3.
(** ... NC, SNC *)
Definition evaluateHcurl (pos : Z -> vec) (m : dofmap Rsr) (u : list R) (e : selt) (q : R * R) : option vec :=
  T <- cornersOf pos e ;; cs <- localCoefficients m u (s_index e) ;;
  sumShapes (fun k => hcurlValue T (ncValue k q)) cs 3.
(** the spaces: raviart_thomas_0_vector_space.cpp 194-351 and nedelec_0_vector_space.cpp are
    rwg_vector_space.cpp and scaled_nedelec_0_vector_space.cpp with all lengths 1 in the weights *)
Definition rtSpace (g : sgrid) (s : segment) : option (dofmap Rsr) := rwgAssign (K := Rsr) g (fun _ => 1) s false true false.
Definition rwgSpace (g : sgrid) (len : Z -> R) (s : segment) : option (dofmap Rsr) := rwgAssign (K := Rsr) g len s false true false.
