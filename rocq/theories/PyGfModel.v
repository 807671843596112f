(** Model of /repo/python/bempp/api/assembly/grid_function.py:26-137, 181-217, 401-501 (grid functions given by
    coefficients or by projections), of /repo/python/bempp/api/assembly/blocked_operator.py:869-952 (lists of grid
    functions) and of the products of operators and grid functions (boundary_operator.py:95-102,
    blocked_operator.py:147-181).
    1-d arrays are matrices with one column.  Spaces and mass matrices are those of PyBopModel; the identity operators
    are assembled afresh at every use.  Not modelled: dtypes, 'fun' (its projections are a given vector), and arrays
    shared with the caller (the constructor stores 'projections' itself; properties return the stored arrays). *)
From Coq Require Import List Arith Bool.
Import ListNotations.
From Verif Require Import Base ArrayModel AsmModel QuadModel MatAlg PyOpModel PyOpSpec PyBopModel PyBlockModel.
Set Implicit Arguments.

Section PyGf.
  Variable K : star_ring.
  Variable mass : space -> space -> mat K.
  Variable pinv : mat K -> mat K.
  Notation vec := (mat K).

  Inductive representation := Primal | Dual.
  (** _space, _dual_space, _coefficients, _dual_coefficients, _representation *)
  Record gf := GF { g_space : space; g_dual : space; g_coeffs : option vec; g_proj : option vec; g_repr : representation }.
  Definition gheap := list gf.
  Definition gcomp A := gheap -> gheap * res A.
  Definition gret A (r : res A) : gcomp A := fun h => (h, r).
  Definition gthen A B (x : gcomp A) (f : A -> gcomp B) : gcomp B :=
    fun h => let '(h1, r) := x h in match r with Ok w => f w h1 | Throws => (h1, Throws) | Undefined => (h1, Undefined) end.
  Fixpoint gmodify (h : gheap) (i : nat) (f : gf -> gf) : gheap :=
    match h, i with [], _ => [] | o :: r, 0 => f o :: r | o :: r, S k => o :: gmodify r k f end.

  (** 100-137: dual_space=None means the space itself; 1-d arrays only *)
  Definition fromCoefficients (s : space) (d : option space) (v : vec) : gf :=
    GF s (match d with Some t => t | None => s end) (Some v) None Primal.
  Definition fromProjections (s : space) (d : option space) (p : vec) : gf :=
    GF s (match d with Some t => t | None => s end) None (Some p) Dual.
  Definition alloc (g : gf) : gcomp nat := fun h => (h ++ [g], Ok (length h)).

  (** 139-153 *)
  Definition computeCoefficients (s : space) (p : vec) (d : space) : res vec := dot pinv (Inverse (mass s d)) p.
  (** 479-486.  None has no coefficients: np.asarray(None) is an object array and the product raises *)
  Definition coefficients (i : nat) : gcomp vec := fun h =>
    match nth_error h i with
    | None => (h, Undefined)
    | Some g =>
      match g_coeffs g with
      | Some c => (h, Ok c)
      | None =>
        match g_proj g with
        | None => (h, Throws)
        | Some p =>
          match computeCoefficients (g_space g) p (g_dual g) with
          | Ok c => (gmodify h i (fun g => GF (g_space g) (g_dual g) (Some c) (g_proj g) Primal), Ok c)
          | Throws => (h, Throws)
          | Undefined => (h, Undefined)
          end
        end
      end
    end.
  (** 488-497 *)
  Definition setCoefficients (i : nat) (v : vec) : gcomp unit := fun h =>
    match nth_error h i with
    | None => (h, Undefined)
    | Some _ => (gmodify h i (fun g => GF (g_space g) (g_dual g) (Some v) None Primal), Ok tt)
    end.
  (** 181-217: the dual space is stored before the coefficients are computed *)
  Definition projections (i : nat) (d : option space) : gcomp vec := fun h =>
    match nth_error h i with
    | None => (h, Undefined)
    | Some g =>
      let t := match d with Some t => t | None => g_dual g end in
      match (if speq t (g_dual g) then g_proj g else None) with
      | Some p => (h, Ok p)
      | None =>
        let h1 := gmodify h i (fun g => GF (g_space g) t (g_coeffs g) (g_proj g) (g_repr g)) in
        gthen (coefficients i) (fun c => gthen (gret (dot pinv (Sparse (mass (g_space g) t)) c)) (fun p h2 =>
          (gmodify h2 i (fun g => GF (g_space g) (g_dual g) (g_coeffs g) (Some p) (g_repr g)), Ok p))) h1
      end
    end.
  (** 401-414 *)
  Definition gAdd (i j : nat) : gcomp nat := fun h =>
    match nth_error h i, nth_error h j with
    | Some f, Some g =>
      if negb (speq (g_space f) (g_space g)) then (h, Throws) else
      let primal := gthen (coefficients i) (fun c => gthen (coefficients j) (fun c' =>
                    gthen (gret (npAdd c c')) (fun v => alloc (fromCoefficients (g_space f) None v)))) in
      match g_repr f, g_repr g with
      | Dual, Dual =>
        if speq (g_dual f) (g_dual g)
        then gthen (projections i None) (fun p => gthen (projections j None) (fun p' =>
             gthen (gret (npAdd p p')) (fun v => alloc (fromProjections (g_space f) (Some (g_dual f)) v)))) h
        else primal h
      | _, _ => primal h
      end
    | _, _ => (h, Undefined)
    end.
  (** 416-437 *)
  Definition gScale (i : nat) (a : K) : gcomp nat := fun h =>
    match nth_error h i with
    | None => (h, Undefined)
    | Some g =>
      match g_repr g with
      | Dual => match g_proj g with Some p => alloc (fromProjections (g_space g) (Some (g_dual g)) (mScale a p)) h | None => (h, Throws) end
      | Primal => gthen (coefficients i) (fun c => alloc (fromCoefficients (g_space g) None (mScale a c))) h
      end
    end.
  (** 448-455 *)
  Definition gSub (i j : nat) : gcomp nat := fun h =>
    match nth_error h i, nth_error h j with
    | Some f, Some g => if negb (speq (g_space f) (g_space g)) then (h, Throws) else gthen (gScale j (opp one)) (fun k => gAdd i k) h
    | _, _ => (h, Undefined)
    end.

  (** boundary_operator.py:95-102 *)
  Definition applyOp (dom ran dual : space) (weak : res (dop K)) (i : nat) : gcomp nat := fun h =>
    match nth_error h i with
    | None => (h, Undefined)
    | Some g => if negb (compat dom (g_space g)) then (h, Throws)
                else gthen (gret weak) (fun w => gthen (coefficients i) (fun c => gthen (gret (dot pinv w c)) (fun y =>
                     alloc (fromProjections ran (Some dual) y)))) h
    end.

  Inductive gcmd :=
  | GNew (s : space) (d : option space) (v : vec) | GProjd (s : space) (d : option space) (p : vec)
  | GCoeff (i : nat) | GSet (i : nat) (v : vec) | GProj (i : nat) (d : option space)
  | GAdd (i j : nat) | GSub (i j : nat) | GScl (i : nat) (a : K)
  | GApp (dom ran dual : space) (e : expr K) (i : nat).       (* the operator with the weak form described by e, see PyBopModel *)
  Definition gstep (h : gheap) (c : gcmd) : gheap :=
    match c with
    | GNew s d v => h ++ [fromCoefficients s d v]
    | GProjd s d p => h ++ [fromProjections s d p]
    | GCoeff i => fst (coefficients i h)
    | GSet i v => fst (setCoefficients i v h)
    | GProj i d => fst (projections i d h)
    | GAdd i j => fst (gAdd i j h)
    | GSub i j => fst (gSub i j h)
    | GScl i a => fst (gScale i a h)
    | GApp d r t e i => fst (applyOp d r t (build e) i h)
    end.
  Definition grun (cs : list gcmd) : gheap := fold_left gstep cs [].

  (** ---- lists of grid functions ---- *)
  Fixpoint eachGf A (f : nat -> gcomp A) (l : list nat) : gcomp (list A) :=
    match l with
    | [] => gret (Ok [])
    | i :: r => gthen (f i) (fun a => gthen (eachGf f r) (fun b => gret (Ok (a :: b))))
    end.
  (** res[pos:pos + n] = v *)
  Definition assign (n : nat) (v : vec) : res vec :=
    if m_rows v =? n then Ok v else if m_rows v =? 1 then Ok (Mat n 1 (fun _ j => m_at v 0 j)) else Throws.
  Definition stacked (l : list vec) : vec := Mat (list_sum (map (@m_rows K) l)) 1 (stackAt l).
  Definition spaceOf (h : gheap) (i : nat) : res space := match nth_error h i with Some g => Ok (g_space g) | None => Undefined end.
  (** blocked_operator.py:869-894: the slices lie end to end *)
  Definition coefficientsOfList (l : list nat) : gcomp vec := fun h =>
    gthen (eachGf coefficients l) (fun _ =>                                 (* 883-886: dtypes and lengths *)
    gthen (eachGf (fun i => gthen (coefficients i) (fun c h => (h, bind (spaceOf h i) (fun s => assign (s_dofs s) c)))) l) (fun vs =>
    gret (Ok (stacked vs)))) h.
  (** 896-929: zip stops at the shorter list *)
  Definition projectionsOfList (l : list nat) (ds : list space) : gcomp vec := fun h =>
    gthen ((fix go (l : list (nat * space)) : gcomp (list vec) :=
       match l with
       | [] => gret (Ok [])
       | (i, d) :: r => gthen (projections i (Some d)) (fun p => gthen (go r) (fun q => gret (Ok (p :: q))))
       end) (combine l ds)) (fun vs => gret (Ok (stacked vs))) h.
  (** 931-952: slices beyond the end are empty *)
  Fixpoint listFromCoefficients (x : vec) (pos : nat) (ss : list space) : list gf :=
    match ss with
    | [] => []
    | s :: r => fromCoefficients s None (rowSlice x pos (s_dofs s)) :: listFromCoefficients x (pos + s_dofs s) r
    end.

  (** blocked_operator.py:147-181.  The domain spaces of the operator are not compared with the spaces of the functions;
      an empty list fails in 162 *)
  Fixpoint rowFunctions (y : vec) (pos : nat) (dims : list nat) (ran dual : list space) : list gf :=
    match dims, ran, dual with
    | n :: dims', r :: ran', d :: dual' => fromProjections r (Some d) (rowSlice y pos n) :: rowFunctions y (pos + n) dims' ran' dual'
    | _, _, _ => []
    end.
  Definition applyBlocked (ncols : nat) (ran dual : list space) (weak : res (bop K)) (l : list nat) : gcomp (list gf) := fun h =>
    if negb (length l =? ncols) then (h, Throws) else
    gthen (gret weak) (fun w =>
    if length l =? 0 then gret Throws else
    gthen (eachGf coefficients l) (fun cs =>
    gthen (gret (mapRes (fun q => assign (fst q) (snd q)) (combine (colDims w) cs))) (fun xs =>
    gthen (gret (bapply pinv true w (stacked xs))) (fun y => gret (Ok (rowFunctions y 0 (rowDims w) ran dual)))))) h.
End PyGf.
Arguments GF {K}. Arguments GNew {K}. Arguments GProjd {K}. Arguments GCoeff {K}. Arguments GSet {K}. Arguments GProj {K}.
Arguments GAdd {K}. Arguments GSub {K}. Arguments GScl {K}. Arguments GApp {K}.
