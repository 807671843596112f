(** Chebyshev tools of the fast multipole module: /repo/lib/fmm/chebychev_tools_impl.hpp.  Doubles are real numbers; vectors are
    functions of the index (of the size m_terms = 1 + order that the code presumes); order > 0 is asserted. *)
From Coq Require Import Reals List Arith.
Import ListNotations.
Set Implicit Arguments.
Unset Strict Implicit.
Local Open Scope R_scope.

(** a loop with body [s += f(j)], s = 0 at the start, j < m *)
Fixpoint rsum (m : nat) (f : nat -> R) : R := match m with O => 0 | S k => rsum k f + f k end.
Definition terms (order : nat) : nat := S order.
(** 14-16: m_nodes *)
Definition node (order m : nat) : R := cos (PI * INR m / INR order).
(** 18-25: m_barycentricWeights *)
Definition alternating (k : nat) : R := (-1) ^ k.
Definition baryWeight (order k : nat) : R :=
  let w k := if (k =? 0)%nat then 1 / 2 else alternating k in
  if (k =? order)%nat then w k * (1 / 2) else w k.

(** 42-72, for one evaluation point.  [exactAt]: 1 + the last node that equals the point, 0 if there is none; then the quotient,
    which is not a number, is overwritten *)
Definition exactAt (order : nat) (x : R) : nat :=
  fold_left (fun e j => if Req_EM_T (x - node order j) 0 then S j else e) (seq 0 (terms order)) 0%nat.
Definition numerator (order : nat) (weights : nat -> R) (x : R) : R := rsum (terms order) (fun j => baryWeight order j / (x - node order j) * weights j).
Definition denominator (order : nat) (x : R) : R := rsum (terms order) (fun j => baryWeight order j / (x - node order j)).
Definition evaluateAt (order : nat) (weights : nat -> R) (x : R) : R :=
  match exactAt order x with S j => weights j | O => numerator order weights x / denominator order x end.
Definition evaluateInterpolationPolynomial (order : nat) (weights : nat -> R) (points : list R) : list R := map (evaluateAt order weights) points.

(** 75-98 *)
Definition childPoint (order : nat) (ratio : R) (j : nat) : R :=
  let r := 2 * ratio in
  if (j <? terms order)%nat then -1 + r * (1 + cos (PI * INR j / INR (terms order - 1))) / 2
  else 1 - r + r * (1 + cos (PI * INR (j - terms order) / INR (terms order - 1))) / 2.
Definition childInterpolationMatrix (order : nat) (ratio : R) (i j : nat) : R :=
  nth i (evaluateInterpolationPolynomial order (fun l => if (l =? j)%nat then 1 else 0) (map (childPoint order ratio) (seq 0 (2 * terms order)))) 0.

(** 27-37: m_chebDiffMatrix *)
Definition diffWeight (order k : nat) : R :=
  let w := if (k =? 0)%nat then baryWeight order k * 4 else baryWeight order k in
  if (k =? order)%nat then w * 4 else w.
Definition diffRaw (order i j : nat) : R :=
  (diffWeight order i * (1 / diffWeight order j)) / ((node order i - node order j) + (if (i =? j)%nat then 1 else 0)).
Definition diffMatrix (order i j : nat) : R :=
  diffRaw order i j - (if (i =? j)%nat then rsum (terms order) (diffRaw order i) else 0).
(** 100-104 *)
Definition derivativeWeights (order : nat) (weights : nat -> R) (i : nat) : R := rsum (terms order) (fun j => diffMatrix order i j * weights j).

(** 106-152: the assignments to the result, in order; an entry that is never assigned keeps what the memory contained *)
Definition assignments3d (order : nat) (weights : nat -> R) (direction : nat) : list (nat * R) :=
  let m := terms order in
  let r := seq 0 m in
  match direction with
  | 2%nat => flat_map (fun i => flat_map (fun j => let index := (i * m * m + j * m)%nat in
               map (fun k => ((index + k)%nat, derivativeWeights order (fun l => weights (index + l)%nat) k)) r) r) r
  | 1%nat => flat_map (fun i => flat_map (fun k => let index := (i * m * m + k)%nat in
               map (fun j => ((index + j * m)%nat, derivativeWeights order (fun l => weights (index + l * m)%nat) j)) r) r) r
  | 0%nat => flat_map (fun j => flat_map (fun k => let index := (j * m + k)%nat in
               map (fun i => ((index + i * m * m)%nat, derivativeWeights order (fun l => weights (index + l * m * m)%nat) i)) r) r) r
  | _ => []
  end.
Definition derivativeWeights3d (order : nat) (weights : nat -> R) (direction : nat) (memory : nat -> R) (i : nat) : R :=
  match find (fun a => (fst a =? i)%nat) (rev (assignments3d order weights direction)) with Some a => snd a | None => memory i end.
