(** Model of /repo/lib/assembly/scattered_range.hpp. *)
From Verif Require Import Base.
Local Open Scope Z_scope.
Set Implicit Arguments.

(** size_t arithmetic *)
Definition w64 (x : Z) : Z := x mod 2 ^ 64.
(** 90: m_begin, m_end, m_step *)
Record srange := SRange { r_begin : Z; r_end : Z; r_step : Z }.
(** 62-67: the splitting constructor; (range left in the argument, new range) *)
Definition splitRange (r : srange) : srange * srange :=
  (SRange (r_begin r) (r_end r) (w64 (r_step r * 2)),
   SRange (w64 (r_begin r + r_step r)) (r_end r) (w64 (r_step r * 2))).
(** 69, 71 *)
Definition r_empty (r : srange) : bool := r_end r <=? r_begin r.
Definition is_divisible (r : srange) : bool := w64 (r_begin r + r_step r) <? r_end r.
(** 81-86 *)
Definition r_size (r : srange) : Z :=
  if r_empty r then 0 else w64 (w64 (r_end r - 1 - r_begin r) / r_step r + 1).
(** 43-46: const_iterator::operator++ *)
Definition nextValue (r : srange) (v : Z) : Z := Z.min (w64 (v + r_step r)) (r_end r).
(** for (it = begin(); it != end(); ++it): the values taken by the iterator (comparison of the
    implicit conversions to size_t).  [None]: the loop has not ended after [fuel] rounds *)
Fixpoint loopFrom (r : srange) (fuel : nat) (v : Z) : option (list Z) :=
  if v =? r_end r then Some [] else
  match fuel with
  | O => None
  | S f => match loopFrom r f (nextValue r v) with Some l => Some (v :: l) | None => None end
  end.
(** TBB splits a range only while is_divisible(), in any order, any number of times: the
    sub-ranges a range can be processed as *)
Inductive splitsInto : srange -> list srange -> Prop :=
| sp_leaf r : splitsInto r [r]
| sp_node r l1 l2 : is_divisible r = true ->
    splitsInto (fst (splitRange r)) l1 -> splitsInto (snd (splitRange r)) l2 -> splitsInto r (l1 ++ l2).
