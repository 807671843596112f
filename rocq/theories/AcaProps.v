(** C11, C12: the ACA compressor.

    Setting: scalars in a commutative ring with conjugation where every non-zero
    element has an inverse; an arbitrary block M of dimensions rows x cols; arbitrary
    magnitudes, arbitrary norm bookkeeping and an arbitrary convergence test; the
    zero-pivot test only has to reject the pivot 0 (true in the code when the dof
    volumes are positive). Exact arithmetic. *)
From Verif Require Import Base HMatApplyModel HMatApplySpec AcaModel AcaProofs.

(** C11.  The main loop ends after at most 3 calls of aca, without undefined behaviour;
    the factors have shapes rows x r and r x cols, r <= min(maxRank, rows, cols), and
    no row or column pivot is used twice. *)
Theorem C11_aca_terminates_with_bounded_rank :
  forall (K : star_ring) (inv : K -> K), (forall x : K, x <> zero -> mul x (inv x) = one) ->
  forall (V : Type) (mag : K -> V) (lt : V -> V -> bool) (vmax : V)
    (M : nat -> nat -> K) (rows cols : nat) (tiny : nat -> nat -> K -> bool),
  (forall i j x, tiny i j x = false -> x <> zero) ->
  forall (Nrm : Type) (norm0 : Nrm) normUpdate conv (maxRank : nat),
  0 < rows -> 0 < cols ->
  forall fuel, 3 <= fuel ->
  exists calls s,
    compressAca inv mag lt vmax M rows cols tiny norm0 normUpdate conv fuel maxRank = Some (calls, s) /\
    calls <= 3 /\
    hd_shape (factors rows cols s) rows cols /\
    (match factors rows cols s with
     | LowRank ar r _ br bc _ => ar = rows /\ bc = cols /\ br = r /\
         r = length (st_piv s) /\ r <= Nat.min maxRank (Nat.min rows cols)
     | Dense _ _ _ => False
     end) /\
    NoDup (map fst (st_piv s)) /\ NoDup (map snd (st_piv s)) /\
    (forall i j, In (i, j) (st_piv s) -> i < rows /\ j < cols).
Proof.
  intros K inv Hinv V mag lt vmax M rows cols tiny Ht Nrm norm0 nu cv maxRank Hr Hc fuel Hf.
  destruct (@aca_main K inv Hinv V mag lt vmax M rows cols tiny Ht Nrm norm0 nu cv maxRank Hr Hc fuel Hf)
    as (k & s & E & Hk & Hs & Hl & Hp & N1 & N2 & H).
  exists k, s. split; [exact E|]. split; [exact Hk|]. split; [exact Hs|]. split.
  { cbn. repeat split; [now symmetry|exact Hl]. }
  split; [exact N1|]. split; [exact N2|]. intros i j Hi. destruct (H i j Hi) as (A & B & _). auto.
Qed.
Print Assumptions C11_aca_terminates_with_bounded_rank.

(** C12.  On the row and on the column of every pivot the compressed block equals M. *)
Theorem C12_aca_interpolates :
  forall (K : star_ring) (inv : K -> K), (forall x : K, x <> zero -> mul x (inv x) = one) ->
  forall (V : Type) (mag : K -> V) (lt : V -> V -> bool) (vmax : V)
    (M : nat -> nat -> K) (rows cols : nat) (tiny : nat -> nat -> K -> bool),
  (forall i j x, tiny i j x = false -> x <> zero) ->
  forall (Nrm : Type) (norm0 : Nrm) normUpdate conv (maxRank fuel calls : nat) s,
  0 < rows -> 0 < cols -> 3 <= fuel ->
  compressAca inv mag lt vmax M rows cols tiny norm0 normUpdate conv fuel maxRank = Some (calls, s) ->
  forall i j, In (i, j) (st_piv s) ->
    (forall j', j' < cols -> hentry (factors rows cols s) i j' = M i j') /\
    (forall i', i' < rows -> hentry (factors rows cols s) i' j = M i' j).
Proof.
  intros K inv Hinv V mag lt vmax M rows cols tiny Ht Nrm norm0 nu cv maxRank fuel calls s Hr Hc Hf E i j Hin.
  destruct (@aca_main K inv Hinv V mag lt vmax M rows cols tiny Ht Nrm norm0 nu cv maxRank Hr Hc fuel Hf)
    as (k & s' & E' & _ & _ & _ & _ & _ & _ & H).
  rewrite E in E'. inversion E'; subst. apply (H i j Hin).
Qed.
Print Assumptions C12_aca_interpolates.

(** C12, consequence: when the rank reaches the number of rows or of columns the block
    is reproduced exactly. *)
Theorem C12_full_rank_is_exact :
  forall (K : star_ring) (inv : K -> K), (forall x : K, x <> zero -> mul x (inv x) = one) ->
  forall (V : Type) (mag : K -> V) (lt : V -> V -> bool) (vmax : V)
    (M : nat -> nat -> K) (rows cols : nat) (tiny : nat -> nat -> K -> bool),
  (forall i j x, tiny i j x = false -> x <> zero) ->
  forall (Nrm : Type) (norm0 : Nrm) normUpdate conv (maxRank fuel calls : nat) s,
  0 < rows -> 0 < cols -> 3 <= fuel ->
  compressAca inv mag lt vmax M rows cols tiny norm0 normUpdate conv fuel maxRank = Some (calls, s) ->
  length (st_piv s) = rows \/ length (st_piv s) = cols ->
  forall i j, i < rows -> j < cols -> hentry (factors rows cols s) i j = M i j.
Proof.
  intros K inv Hinv V mag lt vmax M rows cols tiny Ht Nrm norm0 nu cv maxRank fuel calls s Hr Hc Hf E Hl.
  destruct (@aca_main K inv Hinv V mag lt vmax M rows cols tiny Ht Nrm norm0 nu cv maxRank Hr Hc fuel Hf)
    as (k & s' & E' & _ & _ & _ & Hp & _).
  pose proof E' as E2. rewrite E in E2. inversion E2; subst k s'.
  rewrite Hp in Hl. eapply (aca_full _ Hinv); eassumption.
Qed.
Print Assumptions C12_full_rank_is_exact.

(** ---- instance: a 3 x 3 block over the field with two elements ---- *)
Lemma gf2_ring_th : ring_theory false true xorb andb xorb (fun x => x) (@eq bool).
Proof. constructor; repeat intros []; reflexivity. Qed.
Definition GF2 : star_ring :=
  @StarRing bool false true xorb andb xorb (fun x => x) (fun x => x) gf2_ring_th
    (fun _ _ => eq_refl) (fun _ _ => eq_refl) eq_refl (fun _ => eq_refl).
Lemma gf2_inv : forall x : GF2, x <> zero -> mul x x = one.
Proof. intros [] H; [reflexivity|now contradict H]. Qed.
Definition exM (i j : nat) : GF2 := nth j (nth i [[false; true; false]; [true; true; true]; [true; false; false]] []) false.
Definition exTiny (i j : nat) (x : GF2) : bool := negb x.
Lemma exTiny_ok : forall i j x, exTiny i j x = false -> x <> zero.
Proof. intros i j [] H; discriminate. Qed.
Example C11_C12_instance :
  match compressAca (K := GF2) (fun x => x) (fun x => x : bool) (fun a b => negb a && b)%bool true
    exM 3 3 exTiny tt (fun _ _ _ _ => tt) (fun _ _ _ => false) 3 7 with
  | Some (calls, s) => Some (calls, st_piv s)
  | None => None
  end = Some (1, [(0, 1); (1, 0); (2, 2)]).
Proof. vm_compute. reflexivity. Qed.
