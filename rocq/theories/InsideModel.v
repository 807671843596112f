(** Model of /repo/lib/grid/ray_triangle_intersection.cpp and areInside of
    /repo/lib/grid/grid.cpp:35-53, 103-183.  doubles are rationals with exact arithmetic. *)
From Coq Require Import List QArith Qminmax Qabs Bool.
Import ListNotations.
Set Implicit Arguments.
Local Open Scope Q_scope.

Record v3 := V3 { vx : Q; vy : Q; vz : Q }.
(** ray_triangle_intersection.cpp:29-46 *)
Definition vsub (a b : v3) : v3 := V3 (vx a - vx b) (vy a - vy b) (vz a - vz b).
Definition cross (a b : v3) : v3 :=
  V3 (vy a * vz b - vz a * vy b) (vz a * vx b - vx a * vz b) (vx a * vy b - vy a * vx b).
Definition dot (a b : v3) : Q := vx a * vx b + vy a * vy b + vz a * vz b.
Definition ltb (a b : Q) : bool := negb (Qle_bool b a).
Definition eqb (a b : Q) : bool := Qeq_bool a b.
Definition eps : Q := 1 # 10000000000.

(** 53-103: the returned number and, if it is not 0, the stored intersection *)
Definition zRay (p v0 v1 v2 : v3) : Q * option v3 :=
  let d := V3 0 0 1 in
  let e1 := vsub v1 v0 in
  let e2 := vsub v2 v0 in
  let h := cross d e2 in
  let a := dot e1 h in
  if ltb (- eps) a && ltb a eps then (0, None) else
  let f := 1 / a in
  let s := vsub p v0 in
  let u := f * dot s h in
  if ltb u 0 || ltb 1 u then (0, None) else
  let q := cross s e1 in
  let v := f * dot d q in
  if ltb v 0 || ltb 1 (u + v) then (0, None) else
  let t := f * dot e2 q in
  if ltb t eps then (0, None) else
  let inter := V3 (vx v1 + u * vx e1 + v * vx e2) (vy v1 + u * vy e1 + v * vy e2) (vz v1 + u * vz e1 + v * vz e2) in
  (if (eqb u 0 && eqb v 0) || (eqb u 0 && eqb v 1) || (eqb u 1 && eqb v 0) then 1 # 6
   else if eqb u 0 || eqb v 0 || eqb (u + v) 1 then 1 # 2 else 1, Some inter).

(** grid.cpp:45-53 *)
Definition isNew (i : v3) (is : list v3) : bool :=
  forallb (fun j => negb (ltb (Qabs.Qabs (vx j - vx i)) eps && ltb (Qabs.Qabs (vy j - vy i)) eps && ltb (Qabs.Qabs (vz j - vz i)) eps)) is.
Definition triangle := (v3 * v3 * v3)%type.
(** 113-137: elements given by their corners; [None] = unknown element type (throws) *)
Fixpoint splitElements (els : list (list v3)) : option (list triangle) :=
  match els with
  | [] => Some []
  | [a; b; c] :: r => match splitElements r with Some l => Some ((a, b, c) :: l) | None => None end
  | [a; b; c; d] :: r => match splitElements r with Some l => Some ((a, b, c) :: (c, d, a) :: l) | None => None end
  | _ :: _ => None
  end.
(** 35-43, 139-163 *)
Definition lo (f : v3 -> Q) (t : triangle) : Q := let '(a, b, c) := t in Qmin (f a) (Qmin (f b) (f c)).
Definition hi (f : v3 -> Q) (t : triangle) : Q := let '(a, b, c) := t in Qmax (f a) (Qmax (f b) (f c)).
(** minCoeff/maxCoeff; [None] on an empty vector (undefined behaviour) *)
Definition minCoeff (l : list Q) : option Q := match l with [] => None | a :: r => Some (fold_left Qmin r a) end.
Definition maxCoeff (l : list Q) : option Q := match l with [] => None | a :: r => Some (fold_left Qmax r a) end.
(** 166-183: the loop over triangles for one point *)
Definition collectHits (p : v3) (ts : list triangle) : list v3 :=
  fold_left (fun acc t =>
    if negb (ltb (vx p) (lo vx t)) && negb (ltb (hi vx t) (vx p)) && negb (ltb (vy p) (lo vy t)) && negb (ltb (hi vy t) (vy p)) then
      let '(a, b, c) := t in
      let '(val, inter) := zRay p a b c in
      if ltb 0 val then
        match inter with Some i => if isNew i acc then acc ++ [i] else acc | None => acc end
      else acc
    else acc) ts [].
Definition insideBox (p : v3) (ts : list triangle) : option bool :=
  match minCoeff (map (lo vx) ts), maxCoeff (map (hi vx) ts), minCoeff (map (lo vy) ts), maxCoeff (map (hi vy) ts),
        minCoeff (map (lo vz) ts), maxCoeff (map (hi vz) ts) with
  | Some x0, Some x1, Some y0, Some y1, Some z0, Some z1 =>
    Some (negb (ltb (vx p) x0 || ltb x1 (vx p) || ltb (vy p) y0 || ltb y1 (vy p) || ltb (vz p) z0 || ltb z1 (vz p)))
  | _, _, _, _, _, _ => None
  end.
(** result[pt]; result[pt] = intersections.size() converts the count to bool *)
Definition isInside (p : v3) (els : list (list v3)) : option bool :=
  match splitElements els with
  | None => None
  | Some ts =>
    match insideBox p ts with
    | None => None
    | Some false => Some false
    | Some true => Some (negb (Nat.eqb (length (collectHits p ts)) 0))
    end
  end.
