(** Specification vocabulary for local dof lists and component lists. *)
From Verif Require Import Base AsmModel AsmSpec DofListModel.
Set Implicit Arguments.

(** all (element, local dof, weight, array index) tuples of a LocalDofLists object *)
Definition entries {K : star_ring} (L : dofLists K) : list (nat * nat * K * nat) :=
  flat_map (fun g => map (fun x => let '(l, w, a) := x in (fst g, l, w, a)) (snd g)) (dl_groups L).
(** what the request for H-matrix dofs start .. start+count-1 should list: array index a carries
    the support of the original dof p2o(start + a) *)
Definition wanted {K : star_ring} (S : space K) (p2o : list nat) (start count : nat) : list (nat * nat * K * nat) :=
  flat_map (fun a => map (fun x => let '(e, i, w) := x in (e, i, w, a)) (support S (nth (start + a) p2o 0))) (seq 0 count).
(** every entry of the H-matrix-to-original map is a dof *)
Definition validPerm {K : star_ring} (S : space K) (p2o : list nat) : Prop := forall d, In d p2o -> d < sp_count S.

(** all (point, component, array index) triples of a ComponentLists object *)
Definition centries (L : compLists) : list (nat * nat * nat) := flat_map (fun g => map (fun x => (fst g, fst x, snd x)) (snd g)) L.
(** row o of the potential operator is component (o mod comps) at point (o / comps) *)
Definition cwanted (p2o : list nat) (comps start count : nat) : list (nat * nat * nat) :=
  map (fun i => (nth (start + i) p2o 0 / comps, nth (start + i) p2o 0 mod comps, i)) (seq 0 count).

(** the cache before any call, with one pending get(k) per thread *)
Definition cinit (Key V : Type) (ks : list Key) : cstate Key V := CState [] [] (map (@CStart Key) ks).
Definition reqOf {Key} (th : cthread Key) : Key :=
  match th with CStart k => k | CMissed k => k | CBuilt k _ => k | CLost k _ _ => k | CDone k _ => k end.
(** what a cache must guarantee in every reachable state of every interleaving of the calls
    get(ks[0]), get(ks[1]), ... *)
Definition cacheTransparent (Key V : Type) (keyEq : Key -> Key -> bool) (find_ : Key -> V) (ks : list Key) : Prop :=
  let s0 := cinit V ks in
  (* bounded number of steps, and a call that has not returned can always take one *)
  (forall s s' t, cruns keyEq find_ s0 s -> cstep keyEq find_ s t s' ->
     list_sum (map (fun th => match th with CStart _ => 4 | CMissed _ => 3 | CBuilt _ _ => 2 | CLost _ _ _ => 1 | CDone _ _ => 0 end) (c_threads s')) <
     list_sum (map (fun th => match th with CStart _ => 4 | CMissed _ => 3 | CBuilt _ _ => 2 | CLost _ _ _ => 1 | CDone _ _ => 0 end) (c_threads s))) /\
  forall s, cruns keyEq find_ s0 s ->
    (forall t th, nth_error (c_threads s) t = Some th ->
       nth_error ks t = Some (reqOf th) /\
       ((exists k q, th = CDone k q) \/ exists s', cstep keyEq find_ s t s') /\
       (* a returned reference points to a live object holding the lists of the requested key *)
       (forall k q, th = CDone k q -> nth_error (c_heap s) q = Some (Some (find_ k)))) /\
    (* equal requests return the same object, different requests different ones *)
    (forall t t' k k' q q', nth_error (c_threads s) t = Some (CDone k q) -> nth_error (c_threads s) t' = Some (CDone k' q') ->
       (k = k' <-> q = q')) /\
    (* when all calls have returned, every live object is in the map: nothing leaks *)
    ((forall t th, nth_error (c_threads s) t = Some th -> exists k q, th = CDone k q) ->
       forall p v, nth_error (c_heap s) p = Some (Some v) -> In p (map snd (c_map s))).
