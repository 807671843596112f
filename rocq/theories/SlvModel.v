(** Model of /repo/python/bempp/api/linalg/iterative_solvers.py and /repo/python/bempp/api/linalg/direct_solvers.py:
    the solvers behind bempp.api.linalg.gmres, cg and lu.
    SciPy is a parameter: a run of scipy.sparse.linalg.gmres/cg calls the callback with some values, ends with some vector
    and some code; scipy.linalg.solve, lu_factor and lu_solve are given functions.  What they promise is stated in SlvSpec.
    Operators are those of PyBopModel and PyBbopModel, grid functions those of PyGfModel, with their caches.
    Not modelled: tolerances, restarts and iteration limits (part of the parameter), log messages, timings, and arguments
    of other types (58-70, 87-91, 138-139 raise ValueError). *)
From Coq Require Import List Arith Bool ZArith.
Import ListNotations.
From Verif Require Import Base ArrayModel AsmModel QuadModel MatAlg PyOpModel PyOpSpec PyBopModel PyBlockModel PyBbopModel PyGfModel.
Set Implicit Arguments.

(** what a SciPy iteration does: the values given to the callback, the final vector and the returned code *)
Record runOf (K : star_ring) A := Run { r_calls : list A; r_x : nat -> K; r_info : Z }.
(** the returned tuple *)
Record answer F N := Answer { a_fun : F; a_info : Z; a_residuals : option (list N); a_count : option nat }.

Section Slv.
  Variable K : star_ring.
  Variable mass : space -> space -> mat K.
  Variable pinv : mat K -> mat K.
  Notation vec := (mat K).
  (** np.linalg.norm of vectors and of numbers *)
  Variable N : Type.
  Variable norm : vec -> N.
  Variable absn : N -> N.
  (** scipy.sparse.linalg.gmres gives norms of residuals to the callback, scipy.sparse.linalg.cg the iterates *)
  Variable gmresRun : dop K -> vec -> runOf K N.
  Variable bgmresRun : bop K -> vec -> runOf K N.
  Variable cgRun : dop K -> vec -> runOf K (nat -> K).

  Definition colOf (n : nat) (f : nat -> K) : vec := Mat n 1 (fun i _ => f i).
  (** scipy.sparse.linalg.isolve.utils.make_system: "expected square matrix", "A and b have incompatible dimensions" *)
  Definition makeSystem A (s : nat * nat) (b : vec) (r : runOf K A) : res (runOf K A) :=
    if (fst s =? snd s) && (m_rows b =? fst s) && (m_cols b =? 1) then Ok r else Throws.

  (** iterative_solvers.py:13-42, the callback object; 16-23 *)
  Record counter := Ctr { c_count : nat; c_residuals : list N }.
  Definition newCounter : counter := Ctr 0 [].
  (** 25-32 with iteration_is_cg = False *)
  Definition callGmres (store : bool) (s : counter) (r : N) : counter :=
    Ctr (S (c_count s)) (if store then c_residuals s ++ [absn r] else c_residuals s).
  (** 25-32 with iteration_is_cg = True: rhs - operator * x *)
  Definition callCg (store : bool) (A : dop K) (rhs : vec) (s : counter) (x : vec) : res counter :=
    if store then bind (dot pinv A x) (fun y => bind (npAdd rhs (mOpp y)) (fun d => Ok (Ctr (S (c_count s)) (c_residuals s ++ [norm d]))))
    else Ok (Ctr (S (c_count s)) (c_residuals s)).
  Fixpoint callsCg (store : bool) (A : dop K) (rhs : vec) (s : counter) (xs : list vec) : res counter :=
    match xs with [] => Ok s | x :: r => bind (callCg store A rhs s x) (fun s' => callsCg store A rhs s' r) end.
  (** 117-126, 168-177, 218-227 *)
  Definition pack F (f : F) (info : Z) (c : counter) (retRes retCount : bool) : answer F N :=
    Answer f info (if retRes then Some (c_residuals c) else None) (if retCount then Some (c_count c) else None).

  Definition state := (heap K * gheap K)%type.
  (** the left and right hand side: 93-102 (cg), 143-152 (gmres) *)
  Definition system (strong : bool) (j i : nat) (st : state) : state * res (dop K * vec) :=
    let '(hb, hg) := st in
    match nth_error hb j, nth_error hg i with
    | Some o, Some g =>
      if strong then
        if negb (compat (o_ran o) (g_space g)) then (st, Throws) else
        let '(hb1, w) := strong_form mass false j hb in
        match w with
        | Ok w => let '(hg1, v) := coefficients mass pinv i hg in ((hb1, hg1), bind v (fun v => Ok (w, v)))
        | Throws => ((hb1, hg), Throws)
        | Undefined => ((hb1, hg), Undefined)
        end
      else
        let '(hb1, w) := weak_form mass false j hb in
        match w with
        | Ok w => let '(hg1, v) := projections mass pinv i (Some (o_dual o)) hg in ((hb1, hg1), bind v (fun v => Ok (w, v)))
        | Throws => ((hb1, hg), Throws)
        | Undefined => ((hb1, hg), Undefined)
        end
    | _, _ => (st, Undefined)
    end.
  (** 115, 166: GridFunction(A.domain, coefficients=x.ravel()) *)
  Definition solution (j n : nat) (x : nat -> K) (st : state) : state * res nat :=
    let '(hb, hg) := st in
    match nth_error hb j with
    | Some o => let '(hg1, k) := alloc (fromCoefficients (o_dom o) None (colOf n x)) hg in ((hb, hg1), k)
    | None => (st, Undefined)
    end.
  Definition finish A (j : nat) (calls : runOf K A -> dop K -> vec -> res counter) (run : dop K -> vec -> runOf K A) (retRes retCount : bool)
      (s : state * res (dop K * vec)) : state * res (answer nat N) :=
    let '(st, wb) := s in
    match wb with
    | Ok (w, b) =>
      match bind (makeSystem (shape w) b (run w b)) (fun r => bind (calls r w b) (fun c => Ok (r, c))) with
      | Ok (r, c) => let '(st1, k) := solution j (fst (shape w)) (r_x r) st in (st1, bind k (fun k => Ok (pack k (r_info r) c retRes retCount)))
      | Throws => (st, Throws)
      | Undefined => (st, Undefined)
      end
    | Throws => (st, Throws)
    | Undefined => (st, Undefined)
    end.
  (** 128-177 *)
  Definition gmresSingle (strong retRes retCount : bool) (j i : nat) (st : state) : state * res (answer nat N) :=
    finish j (fun r _ _ => Ok (fold_left (callGmres retRes) (r_calls r) newCounter)) gmresRun retRes retCount (system strong j i st).
  (** 73-126 *)
  Definition cg (strong retRes retCount : bool) (j i : nat) (st : state) : state * res (answer nat N) :=
    finish j (fun r w b => callsCg retRes w b newCounter (map (colOf (fst (shape w))) (r_calls r))) cgRun retRes retCount (system strong j i st).

  (** ---- blocked operators: 179-227 ---- *)
  Definition bstate := (bheap K * gheap K)%type.
  (** A.dual_to_range_spaces, A.domain_spaces; a space that is not set raises AttributeError when it is used *)
  Definition known (l : list (option space)) : res (list space) :=
    mapRes (fun s => match s with Some s => Ok s | None => Throws end) l.
  Definition bsystem (strong : bool) (j : nat) (l : list nat) (st : bstate) : bstate * res (bop K * vec) :=
    let '(hb, hg) := st in
    if strong then
      let '(hg1, v) := coefficientsOfList mass pinv l hg in                                    (* 196 *)
      match v with
      | Ok v => let '(hb1, w) := bstrong_form mass false j hb in ((hb1, hg1), bind w (fun w => Ok (w, v)))    (* 197 *)
      | Throws => ((hb, hg1), Throws)
      | Undefined => ((hb, hg1), Undefined)
      end
    else
      let '(hb1, w) := bweak_form mass false j hb in                                          (* 199 *)
      match w, spacesAt (S (length hb1)) hb1 j with
      | Ok w, Some (_, d, _) =>
        match known d with                                                                     (* 200-201 *)
        | Ok d => let '(hg1, v) := projectionsOfList mass pinv l d hg in ((hb1, hg1), bind v (fun v => Ok (w, v)))
        | Throws => ((hb1, hg), Throws)
        | Undefined => ((hb1, hg), Undefined)
        end
      | Throws, _ => ((hb1, hg), Throws)
      | _, _ => ((hb1, hg), Undefined)
      end.
  Definition gmresBlocked (strong retRes retCount : bool) (j : nat) (l : list nat) (st : bstate) : bstate * res (answer (list (gf K)) N) :=
    let '((hb, hg), wb) := bsystem strong j l st in
    match wb with
    | Ok (w, b) =>
      (((hb, hg)), bind (makeSystem (bshape w) b (bgmresRun w b)) (fun r =>
        match spacesAt (S (length hb)) hb j with
        | Some (_, _, c) => bind (known c) (fun c =>                                           (* 215-216 *)
            Ok (pack (listFromCoefficients (colOf (fst (bshape w)) (r_x r)) 0 c) (r_info r) (fold_left (callGmres retRes) (r_calls r) newCounter) retRes retCount))
        | None => Undefined
        end))
    | Throws => ((hb, hg), Throws)
    | Undefined => ((hb, hg), Undefined)
    end.

  (** ---- direct_solvers.py ---- *)
  Variable F : Type.
  (** scipy.linalg.solve, lu_factor, lu_solve: they raise for arrays that are not square matrices, for vectors of other
      sizes, and solve for singular matrices *)
  Variable solve : mat K -> vec -> res vec.
  Variable luFactor : mat K -> res F.
  Variable luSolve : F -> vec -> res vec.
  (** np.asarray_chkfinite(op) as used by lu_factor: an operator has neither __array__ nor __len__, so the result is an
      array of dimension 0 holding the object; lu_factor: "expected square matrix" *)
  Definition operatorAsSquareArray (w : dop K) : res (mat K) := Throws.
  (** 5-16 *)
  Definition computeLuFactors (j : nat) (hb : heap K) : heap K * res F :=
    let '(hb1, w) := weak_form mass false j hb in (hb1, bind w (fun w => bind (operatorAsSquareArray w) luFactor)).
  (** 19-48.  For sparse operators as_matrix returns a SciPy sparse matrix (discrete_boundary_operator.py:629-630), which
      scipy.linalg.solve rejects *)
  Definition lu (factors : option F) (j i : nat) (st : state) : state * res nat :=
    let '(hb, hg) := st in
    match nth_error hb j with
    | None => (st, Undefined)
    | Some o =>
      let finishLu hb1 (hv : gheap K * res vec) (f : vec -> res vec) :=
        let '(hg1, v) := hv in
        match bind v f with
        | Ok x => let '(hg2, k) := alloc (fromCoefficients (o_dom o) None x) hg1 in ((hb1, hg2), k)
        | Throws => ((hb1, hg1), Throws)
        | Undefined => ((hb1, hg1), Undefined)
        end in
      match factors with
      | Some f => finishLu hb (projections mass pinv i (Some (o_dual o)) hg) (luSolve f)            (* 41-43 *)
      | None =>
        let '(hb1, w) := weak_form mass false j hb in
        match w with
        | Ok (Sparse a) => finishLu hb1 (projections mass pinv i (Some (o_dual o)) hg) (fun _ => Throws)
        | Ok w => match asMatrix pinv w with
                  | Ok m => finishLu hb1 (projections mass pinv i (Some (o_dual o)) hg) (solve m)     (* 45-47 *)
                  | Throws => ((hb1, hg), Throws)
                  | Undefined => ((hb1, hg), Undefined)
                  end
        | Throws => ((hb1, hg), Throws)
        | Undefined => ((hb1, hg), Undefined)
        end
      end
    end.
End Slv.
Arguments colOf {K}. Arguments Run {K A}. Arguments r_x {K A}. Arguments r_info {K A}. Arguments r_calls {K A}.
