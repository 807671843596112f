(** Specification of the function space factory *)
From Coq Require Import List ZArith Bool.
Import ListNotations.
From Verif Require Import FspModel.
Open Scope Z_scope.

(** the documented orders *)
Definition orders (k : kind) (o : Z) : Prop :=
  match k with
  | P => 1 <= o <= 10 | DP => 0 <= o <= 10 | BP | BDP => o = 1
  | RT | NC | SNC | RWG | BRT | BNC | BSNC | BRWG | DUAL | BC | RBC => o = 0
  | Unknown => False end.
(** kinds that can be restricted to domains *)
Definition restrictable (k : kind) : bool := match k with P | DP | RT | NC | SNC | RWG => true | _ => false end.
(** the arguments describe a space the library has *)
Definition supported (a : args) : Prop :=
  orders (a_kind a) (a_order a) /\ (a_domains a = None \/ restrictable (a_kind a) = true) /\
  (a_kind a = DP -> a_ref a = true \/ a_elem a = true).
(** the space is the one asked for *)
Definition asRequested (a : args) (s : pspace) : Prop :=
  c_grid (coreOf s) = a_grid a /\ c_kind (coreOf s) = a_kind a /\ c_order (coreOf s) = a_order a /\ orderOf s = a_order a /\
  c_segment (coreOf s) = match a_domains a with None => None | Some d => Some (d, a_closed a) end.
(** the options are the ones asked for: on a segment, the P space keeps strictly_on_segment, and the mode of the DP space has
    ELEMENT_ON_SEGMENT (bit 1) and REFERENCE_POINT_ON_SEGMENT (bit 2) as asked for (dof_assignment_mode.hpp) *)
Definition optionsKept (a : args) (s : pspace) : Prop :=
  a_domains a <> None ->
  (a_kind a = P -> c_strict (coreOf s) = a_strict a) /\
  (a_kind a = DP -> 0 < a_order a -> Z.testbit (c_mode (coreOf s)) 1 = a_elem a /\ Z.testbit (c_mode (coreOf s)) 2 = a_ref a).
(** kinds on the barycentric refinement, and the same functions on the grid itself *)
Definition barycentricKind (k : kind) : bool := match k with BP | BDP | BRT | BNC | BSNC | BRWG | DUAL | BC | RBC => true | _ => false end.
Definition unrefined (k : kind) : option kind :=
  match k with BP => Some P | BDP => Some DP | BRT => Some RT | BNC => Some NC | BSNC => Some SNC | BRWG => Some RWG
  | DUAL | BC | RBC | Unknown => None | _ => Some k end.
(** the divergence-conforming partner of a curl-conforming kind *)
Definition partner (k : kind) : option kind :=
  match k with NC => Some RT | SNC => Some RWG | BNC => Some BRT | BSNC => Some BRWG | RBC => Some BC | _ => None end.
(** spaces that programs get at: results of function_space and their public attributes *)
Inductive reachable : pspace -> Prop :=
| r_made a s : functionSpace a = Some s -> reachable s
| r_super s t : reachable s -> superSpace s = Some t -> reachable t
| r_disc s t : reachable s -> discSpace s = Some t -> reachable t
| r_non s t : reachable s -> nonBarySpace s = Some t -> reachable t.
(** the same functions: same grid, kind, order and options, and the same domains as sets *)
Definition sameDomains (x y : option (list Z * bool)) : Prop :=
  match x, y with None, None => True | Some (d, c), Some (d', c') => (forall i, In i d <-> In i d') /\ c = c' | _, _ => False end.
Definition sameFunctions (c c' : core) : Prop :=
  c_grid c = c_grid c' /\ c_kind c = c_kind c' /\ c_order c = c_order c' /\ sameDomains (c_segment c) (c_segment c') /\ c_strict c = c_strict c' /\ c_mode c = c_mode c'.
(** attributes of a space that was created with arguments a *)
Record attributesOk (a : args) (s : pspace) : Prop := AttributesOk {
  (* is_barycentric and grid tell on which grid the space lives *)
  at_bary : isBary s = barycentricKind (a_kind a);
  at_grid : gridOf s = if barycentricKind (a_kind a) then Refined (a_grid a) else a_grid a;
  (* the super space is on the same grid and the same part of it, is not barycentric and is its own super space *)
  at_super : exists p, superSpace s = Some p /\ gridOf p = gridOf s /\ isBary p = false /\ superSpace p = Some p /\ c_segment (coreOf p) = c_segment (coreOf s);
  (* likewise the discontinuous space, which consists of elementwise polynomials *)
  at_disc : exists d, discSpace s = Some d /\ c_kind (coreOf d) = DP /\ gridOf d = gridOf s /\ isBary d = false /\ discSpace d = Some d /\ c_segment (coreOf d) = c_segment (coreOf s);
  (* the non-barycentric space has the same kind of functions and order on the grid that was given *)
  at_non : match unrefined (a_kind a) with
    | Some k => hasNonBary s = true /\ exists n, nonBarySpace s = Some n /\ c_kind (coreOf n) = k /\ c_grid (coreOf n) = a_grid a /\ c_order (coreOf n) = c_order (coreOf s) /\
                gridOf n = a_grid a /\ isBary n = false /\ c_segment (coreOf n) = c_segment (coreOf s)
    | None => hasNonBary s = false /\ nonBarySpace s = None end;
  (* curl-conforming spaces know their divergence-conforming partner *)
  at_hdiv : match partner (a_kind a) with
    | Some k => exists h, hdivSpace s = Some h /\ c_kind (coreOf h) = k /\ c_grid (coreOf h) = a_grid a /\ gridOf h = gridOf s /\ c_segment (coreOf h) = c_segment (coreOf s)
    | None => hdivSpace s = None end }.
