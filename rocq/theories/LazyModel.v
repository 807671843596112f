(** Model of lazily created shared objects under concurrency.
    /repo/lib/common/lazy.hpp:44-70 and /repo/lib/grid/concrete_grid.hpp:209-358. *)
From Verif Require Import Base.
Set Implicit Arguments.

(** ---- Lazy<T>::get (lazy.hpp:54-63) ---- *)
(** program counter of one call of get() *)
Inductive lth :=
| LTop                 (* 55: about to test m_value without lock *)
| LWant                (* 56: about to acquire the mutex *)
| LIn                  (* 57: holds the mutex, about to test again *)
| LBuilding            (* 58: inside m_init() *)
| LBuilt (p : nat)     (* 59: about to store the pointer *)
| LRelease             (* 60: leaving the locked scope *)
| LThrowing            (* m_init() threw; unwinding releases the mutex *)
| LExit                (* 62: about to dereference m_value *)
| LRet (p : nat)       (* returned a reference to object p *)
| LThrew               (* left by exception *)
| LBad.                (* dereferenced a null pointer *)
(** m_value (tbb::atomic), m_mutex, number of objects constructed so far (object p is the
    p-th one), number of times the initialiser was entered *)
Record lstate := LState { l_value : option nat; l_mutex : option nat; l_made : nat; l_entered : nat; l_threads : list lth }.
(** one step of thread t; [ok]: whether a running m_init() succeeds.  [None]: blocked or finished *)
Definition lstep (s : lstate) (t : nat) (ok : bool) : option lstate :=
  match nth_error (l_threads s) t with
  | None => None
  | Some th =>
    let go v m n e th' := match upd (l_threads s) t th' with Some l => Some (LState v m n e l) | None => None end in
    match th with
    | LTop => go (l_value s) (l_mutex s) (l_made s) (l_entered s) (match l_value s with None => LWant | Some _ => LExit end)
    | LWant => match l_mutex s with
               | None => go (l_value s) (Some t) (l_made s) (l_entered s) LIn
               | Some _ => None end
    | LIn => match l_value s with
             | None => go (l_value s) (l_mutex s) (l_made s) (S (l_entered s)) LBuilding
             | Some _ => go (l_value s) (l_mutex s) (l_made s) (l_entered s) LRelease end
    | LBuilding => if ok then go (l_value s) (l_mutex s) (S (l_made s)) (l_entered s) (LBuilt (l_made s))
                   else go (l_value s) (l_mutex s) (l_made s) (l_entered s) LThrowing
    | LBuilt p => go (Some p) (l_mutex s) (l_made s) (l_entered s) LRelease
    | LRelease => go (l_value s) None (l_made s) (l_entered s) LExit
    | LThrowing => go (l_value s) None (l_made s) (l_entered s) LThrew
    | LExit => go (l_value s) (l_mutex s) (l_made s) (l_entered s) (match l_value s with Some p => LRet p | None => LBad end)
    | LRet _ | LThrew | LBad => None
    end
  end.
Inductive lruns (s : lstate) : lstate -> Prop :=
| lr_nil : lruns s s
| lr_step s' s'' t ok : lruns s s' -> lstep s' t ok = Some s'' -> lruns s s''.
(** a fresh Lazy and n pending calls of get() *)
Definition lstart (n : nat) : lstate := LState None None 0 0 (repeat LTop n).

(** ---- barycentricGridSonPair (concrete_grid.hpp:209-358) ---- *)
(** The flag of BWait.. records nothing the code knows; it marks calls whose first, unlocked
    test saw no grid. [bs_map]: None = 0 x 0 matrix, Some k = resized, k of the entries written
    (C23_son_map: all [total] writes make it complete). *)
Inductive bth :=
| BTop                       (* 211 *)
| BWant                      (* 212 *)
| BIn                        (* 213 *)
| BBuild                     (* 215-336: building the new grid *)
| BPublish                   (* 338: m_barycentricGrid = newGrid *)
| BResize                    (* 340 *)
| BFill                      (* 342-353: writing the son map entry by entry *)
| BRelease (waited : bool)   (* 354 *)
| BRead (waited : bool)      (* 356-357: copying both members *)
| BRet (waited : bool) (grid : bool) (m : option nat).  (* returned pair *)
Record bstate := BState { bs_grid : bool; bs_map : option nat; bs_mutex : option nat; bs_threads : list bth }.
Definition bstep (total : nat) (s : bstate) (t : nat) : option bstate :=
  match nth_error (bs_threads s) t with
  | None => None
  | Some th =>
    let go g m x th' := match upd (bs_threads s) t th' with Some l => Some (BState g m x l) | None => None end in
    let same th' := go (bs_grid s) (bs_map s) (bs_mutex s) th' in
    match th with
    | BTop => same (if bs_grid s then BRead false else BWant)
    | BWant => match bs_mutex s with None => go (bs_grid s) (bs_map s) (Some t) BIn | Some _ => None end
    | BIn => same (if bs_grid s then BRelease true else BBuild)
    | BBuild => same BPublish
    | BPublish => go true (bs_map s) (bs_mutex s) BResize
    | BResize => go (bs_grid s) (Some 0) (bs_mutex s) BFill
    | BFill => match bs_map s with
               | Some k => if k <? total then go (bs_grid s) (Some (S k)) (bs_mutex s) BFill else same (BRelease true)
               | None => None end
    | BRelease w => go (bs_grid s) (bs_map s) None (BRead w)
    | BRead w => same (BRet w (bs_grid s) (bs_map s))
    | BRet _ _ _ => None
    end
  end.
Inductive bruns (total : nat) (s : bstate) : bstate -> Prop :=
| br_nil : bruns total s s
| br_step s' s'' t : bruns total s s' -> bstep total s' t = Some s'' -> bruns total s s''.
Definition bstart (n : nat) : bstate := BState false None None (repeat BTop n).
