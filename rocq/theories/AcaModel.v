(** Model of the ACA compressor.
    /repo/lib/hmat/hmatrix_aca_compressor_impl.hpp:19-371. *)
From Verif Require Import Base HMatApplyModel.
Set Implicit Arguments.

Section Aca.
  Variable K : star_ring.
  Local Open Scope sr_scope.
  (** division: x / y = x * inv y *)
  Variable inv : K -> K.
  (** magnitudes: [mag] is std::abs, [lt] is operator< on double, [vmax] is
      numeric_limits<double>::max(). *)
  Variable V : Type.
  Variable mag : K -> V.
  Variable lt : V -> V -> bool.
  Variable vmax : V.
  (** the block: entry (i,j) relative to the clusters' first indices, as returned by
      computeMatrixBlock; dimensions rows x cols *)
  Variable M : nat -> nat -> K.
  Variables rows cols : nat.
  (** lines 86-87, 123-124: |pivot| < zeroTol * testVolume[i] * trialVolume[j] *)
  Variable tiny : nat -> nat -> K -> bool.
  (** blockNorm: initial value, update (lines 157-166, 180) and the convergence test
      row.norm() * col.norm() < eps * blockNorm (183-189, 354).  Norms are kept
      abstract: any type, any update, any test. *)
  Variable Nrm : Type.
  Variable norm0 : Nrm.
  Variable normUpdate : (nat -> K) -> (nat -> K) -> list ((nat -> K) * (nat -> K)) -> Nrm -> Nrm.
  Variable conv : (nat -> K) -> (nat -> K) -> Nrm -> bool.

  Inductive mode := ROW | COL.
  Inductive crossStatus := ZERO | SUCCESS.
  Inductive acaStatus := RANK_LIMIT_REACHED | CONVERGED_WITHOUT_ITERATION
    | CONVERGED_AFTER_ITERATION | ZERO_TERMINATION_AFTER_ITERATION
    | ZERO_TERMINATION_WITHOUT_ITERATION.
  Inductive algState := START | ROW_TRIAL | COLUMN_TRIAL.

  (** The factors A and B: the list of (column of A, row of B), oldest first; A.cols()
      and B.rows() are both its length. *)
  Definition crosses := list ((nat -> K) * (nat -> K)).
  Definition AB (l : crosses) (i j : nat) : K := bsum l (fun c => fst c i * snd c j).

  (** State threaded through computeCross / aca / compressBlockImpl.  [st_piv] is a
      ghost: the (row, column) pivots of the crosses appended to A, B. *)
  Record st := St {
    st_ab : crosses; st_piv : list (nat * nat);
    st_next : nat;                                  (* nextPivot *)
    st_orow : nat -> K; st_ocol : nat -> K;         (* origRow, origCol *)
    st_rc : nat -> nat; st_cc : nat -> nat;         (* row/colApproxCounter *)
    st_norm : Nrm; st_maxit : nat }.

  (** Eigen's maxCoeff(&index) of cwiseAbs of a vector of length n: the first maximum. *)
  Fixpoint argmax_from (f : nat -> K) (best : nat) (l : list nat) : nat :=
    match l with
    | [] => best
    | i :: l' => argmax_from f (if lt (mag (f best)) (mag (f i)) then i else best) l'
    end.
  Definition argmax (f : nat -> K) (n : nat) : nat := argmax_from f 0 (seq 1 (n - 1)).

  (** lines 19-41: [None] = false *)
  Fixpoint selectMin_from (vec : nat -> K) (count : nat -> nat) (best : option nat) (minVal : V) (l : list nat)
    : option nat :=
    match l with
    | [] => best
    | i :: l' =>
      if ((count i =? 0)%nat && lt (mag (vec i)) minVal)%bool
      then selectMin_from vec count (Some i) (mag (vec i)) l'
      else selectMin_from vec count best minVal l'
    end.
  Definition selectMinPivot (vec : nat -> K) (count : nat -> nat) (n : nat) : option nat :=
    selectMin_from vec count None vmax (seq 0 n).

  Definition bump (c : nat -> nat) (i : nat) : nat -> nat := fun k => if (k =? i)%nat then S (c k) else c k.
  Definition zero_at (f : nat -> K) (i : nat) : nat -> K := fun k => if (k =? i)%nat then 0 else f k.

  (** lines 43-150.  Returns the status, the new state, the cross (row, col) and its
      pivot position.  [None]: the requested row/column lies outside the block
      (undefined behaviour in the accessor). *)
  Definition computeCross (m : mode) (s : st)
    : option (crossStatus * st * (nat -> K) * (nat -> K) * (nat * nat)) :=
    match m with
    | ROW =>
      let i := st_next s in
      if (i <? rows)%nat then
        let orow := fun j => M i j in
        let row := fun j => orow j - AB (st_ab s) i j in
        let j := argmax row cols in
        let p := row j in
        let s1 := St (st_ab s) (st_piv s) (st_next s) orow (st_ocol s) (st_rc s) (st_cc s) (st_norm s) (st_maxit s) in
        if tiny i j p then Some (ZERO, s1, row, fun _ => 0, (i, j))
        else
          let ocol := fun i => M i j in
          let col := fun i => ocol i - AB (st_ab s) i j in
          let row' := fun k => row k * inv p in
          let nxt := argmax (zero_at col i) rows in
          Some (SUCCESS,
                St (st_ab s) (st_piv s) nxt orow ocol (bump (st_rc s) i) (bump (st_cc s) j) (st_norm s) (st_maxit s),
                row', col, (i, j))
      else None
    | COL =>
      let j := st_next s in
      if (j <? cols)%nat then
        let ocol := fun i => M i j in
        let col := fun i => ocol i - AB (st_ab s) i j in
        let i := argmax col rows in
        let p := col i in
        let s1 := St (st_ab s) (st_piv s) (st_next s) (st_orow s) ocol (st_rc s) (st_cc s) (st_norm s) (st_maxit s) in
        if tiny i j p then Some (ZERO, s1, fun _ => 0, col, (i, j))
        else
          let orow := fun j => M i j in
          let row := fun j => orow j - AB (st_ab s) i j in
          let col' := fun k => col k * inv p in
          let nxt := argmax (zero_at row j) cols in
          Some (SUCCESS,
                St (st_ab s) (st_piv s) nxt orow ocol (bump (st_rc s) i) (bump (st_cc s) j) (st_norm s) (st_maxit s),
                row, col', (i, j))
      else None
    end.

  (** lines 152-181 and 358-359 *)
  Definition accept (s : st) (row col : nat -> K) (p : nat * nat) (k : nat) : st :=
    St (st_ab s ++ [(col, row)]) (st_piv s ++ [p]) (st_next s) (st_orow s) (st_ocol s)
       (st_rc s) (st_cc s) (normUpdate row col (st_ab s) (st_norm s)) k.

  (** lines 320-371; the loop runs while maxIterations > 0, [it] is iterationCount > 0.
      nextPivot of aca is a local variable: the caller's value is unchanged, so the
      state returned has nextPivot reset by the caller below. *)
  Fixpoint aca_loop (fuel : nat) (m : mode) (it : bool) (s : st) : option (acaStatus * st) :=
    match fuel with
    | O => if (st_maxit s =? 0)%nat then Some (RANK_LIMIT_REACHED, s) else None
    | S f =>
      match st_maxit s with
      | O => Some (RANK_LIMIT_REACHED, s)
      | S k =>
        match computeCross m s with
        | None => None
        | Some (ZERO, s', _, _, _) =>
          Some (if it then CONVERGED_AFTER_ITERATION else ZERO_TERMINATION_WITHOUT_ITERATION, s')
        | Some (SUCCESS, s', row, col, p) =>
          if conv row col (st_norm s')
          then Some (if it then CONVERGED_AFTER_ITERATION else CONVERGED_WITHOUT_ITERATION, s')
          else aca_loop f m true (accept s' row col p k)
        end
      end
    end.
  Definition with_next (s : st) (n : nat) : st :=
    St (st_ab s) (st_piv s) n (st_orow s) (st_ocol s) (st_rc s) (st_cc s) (st_norm s) (st_maxit s).
  Definition aca (m : mode) (s : st) : option (acaStatus * st) :=
    match aca_loop (st_maxit s) m false s with
    | Some (r, s') => Some (r, with_next s' (st_next s))
    | None => None
    end.

  (** lines 227-315: the control variables of the main loop *)
  Record ctl := Ctl {
    c_state : algState; c_mode : mode; c_rtp : bool; c_ctp : bool;   (* state, mode, row/columnTrialPassed *)
    c_rtc : nat; c_ctc : nat;                                        (* row/columnTrialCount *)
    c_rz : bool; c_cz : bool }.                                      (* row/columnModeZeroTermination *)

  (** lines 253-294: effect of the aca status; the flag is [finished] *)
  Definition onStatus (a : acaStatus) (c : ctl) : bool * ctl :=
    match a with
    | RANK_LIMIT_REACHED => (true, c)
    | CONVERGED_WITHOUT_ITERATION =>
      let c' := match c_state c with
        | START => Ctl ROW_TRIAL (c_mode c) (c_rtp c) (c_ctp c) (c_rtc c) (c_ctc c) (c_rz c) (c_cz c)
        | ROW_TRIAL => Ctl COLUMN_TRIAL (c_mode c) true (c_ctp c) (c_rtc c) (c_ctc c) (c_rz c) (c_cz c)
        | COLUMN_TRIAL => Ctl ROW_TRIAL (c_mode c) (c_rtp c) true (c_rtc c) (c_ctc c) (c_rz c) (c_cz c)
        end in
      ((c_rtp c' && c_ctp c')%bool, c')
    | CONVERGED_AFTER_ITERATION | ZERO_TERMINATION_AFTER_ITERATION =>
      (false, Ctl (match c_mode c with ROW => ROW_TRIAL | COL => COLUMN_TRIAL end)
                  (c_mode c) false false (c_rtc c) (c_ctc c) false false)
    | ZERO_TERMINATION_WITHOUT_ITERATION =>
      let c' := match c_mode c with
        | ROW => Ctl ROW_TRIAL (c_mode c) (c_rtp c) (c_ctp c) (c_rtc c) (c_ctc c) true (c_cz c)
        | COL => Ctl COLUMN_TRIAL (c_mode c) (c_rtp c) (c_ctp c) (c_rtc c) (c_ctc c) (c_rz c) true
        end in
      ((c_rz c' && c_cz c')%bool, c')
    end.

  (** lines 295-304 *)
  Definition rowTrial (c : ctl) (s : st) : bool * ctl * st :=
    match c_state c with
    | ROW_TRIAL =>
      if (c_rtc c <? 1)%nat then
        match selectMinPivot (st_orow s) (st_cc s) cols with
        | Some p => (false, Ctl (c_state c) COL (c_rtp c) (c_ctp c) (S (c_rtc c)) (c_ctc c) (c_rz c) (c_cz c), with_next s p)
        | None => (true, c, with_next s cols)
        end
      else (true, c, s)
    | _ => (false, c, s)
    end.
  (** lines 305-314 *)
  Definition colTrial (c : ctl) (s : st) : bool * ctl * st :=
    match c_state c with
    | COLUMN_TRIAL =>
      if (c_ctc c <? 1)%nat then
        match selectMinPivot (st_ocol s) (st_rc s) rows with
        | Some p => (false, Ctl (c_state c) ROW (c_rtp c) (c_ctp c) (c_rtc c) (S (c_ctc c)) (c_rz c) (c_cz c), with_next s p)
        | None => (true, c, with_next s rows)
        end
      else (true, c, s)
    | _ => (false, c, s)
    end.

  (** lines 248-315; [n] counts the calls of aca. [None]: undefined behaviour, or fuel
      exhausted. *)
  Fixpoint main_loop (fuel : nat) (n : nat) (c : ctl) (s : st) : option (nat * st) :=
    match fuel with
    | O => None
    | S f =>
      match aca (c_mode c) s with
      | None => None
      | Some (a, s1) =>
        let '(fin, c1) := onStatus a c in
        if fin then Some (S n, s1) else
        let '(fin2, c2, s2) := rowTrial c1 s1 in
        if fin2 then Some (S n, s2) else
        let '(fin3, c3, s3) := colTrial c2 s2 in
        if fin3 then Some (S n, s3) else main_loop f (S n) c3 s3
      end
    end.

  (** lines 191-247 for an admissible block *)
  Definition st0 (maxRank : nat) : st :=
    St [] [] 0 (fun _ => 0) (fun _ => 0) (fun _ => 0%nat) (fun _ => 0%nat) norm0
       (Nat.min maxRank (Nat.min rows cols)).
  Definition ctl0 : ctl := Ctl START ROW false false 0 0 false false.
  Definition compressAca (fuel maxRank : nat) : option (nat * st) :=
    main_loop fuel 0 ctl0 (st0 maxRank).

  (** lines 316-317: the resulting HMatrixLowRankData *)
  Definition factors (s : st) : hdata K :=
    let l := st_ab s in
    let d := ((fun _ => 0) : nat -> K, (fun _ => 0) : nat -> K) in
    LowRank rows (length l) (fun i q => fst (nth q l d) i) (length l) cols (fun q j => snd (nth q l d) j).
End Aca.
Arguments argmax_from {K V}. Arguments argmax {K V}.
Arguments selectMin_from {K V}. Arguments selectMinPivot {K V}.
Arguments compressAca {K} inv {V} mag lt vmax M rows cols tiny {Nrm}.
