(** C174, C175: coupling with FEniCS P1 functions. *)
From Coq Require Import ZArith List Bool Arith Lia Sorted.
Import ListNotations.
From Verif Require Import Base AsmModel MatAlg SegModel SegSpec SegProofs SpaceModel SpaceSpec SpaceProofs SpaceP1Proofs PolyProofs6 BarySpec BaryProofs3 SingModel TraceModel TraceSpec.
Set Implicit Arguments.
Unset Strict Implicit.

Section Proofs.
  Context {K : star_ring}.
  Add Ring KrTr : (sr_ring K).
  Notation "0" := (@zero K). Notation "1" := (@one K).

  Lemma bsum_pairs (i j : nat) : forall (l : list nat) b,
    bsum (combine (seq b (length l)) l) (fun e => if (fst e =? i) && (snd e =? j) then 1 else 0) =
    if (b <=? i) then match nth_error l (i - b) with Some x => if x =? j then 1 else 0 | None => 0 end else 0.
  Proof.
    induction l as [|x r IH]; intro b; cbn [length seq combine].
    - rewrite bsum_nil. destruct (b <=? i); [|reflexivity]. destruct (i - b)%nat; reflexivity.
    - rewrite bsum_cons, IH. cbn [fst snd]. destruct (Nat.eqb_spec b i) as [E|N].
      + replace (i - b)%nat with 0%nat by lia. cbn [nth_error andb]. destruct (Nat.leb_spec (S b) i); [lia|]. destruct (Nat.leb_spec b i); [|lia]. destruct (x =? j); ring.
      + cbn [andb]. destruct (Nat.leb_spec b i), (Nat.leb_spec (S b) i); try lia; [|ring]. replace (i - b)%nat with (S (i - S b)) by lia. cbn [nth_error]. ring.
  Qed.
  Lemma combine_swap A B (l : list A) (m : list B) : combine m l = map (fun p => (snd p, fst p)) (combine l m).
  Proof. revert m. induction l as [|a r IH]; intros [|b s]; cbn; congruence. Qed.
  (** matrices with a single one in each row *)
  Lemma coo_rows r c (l : list nat) : length l = r -> Forall (fun x => x < c)%nat l ->
    exists M : mat K, cooMatrix r c (map (fun p => (fst p, snd p, 1)) (combine (seq 0 r) l)) = Some M /\ m_rows M = r /\ m_cols M = c /\
    forall i j, m_at M i j = match nth_error l i with Some x => if x =? j then 1 else 0 | None => 0 end.
  Proof.
    intros L F. unfold cooMatrix. rewrite (proj2 (forallb_forall _ _)).
    - eexists. split; [reflexivity|]. split; [reflexivity|]. split; [reflexivity|]. intros i j. cbn [m_at]. rewrite bsum_map. cbn [fst snd].
      subst r. rewrite (bsum_pairs i j l 0). cbn [Nat.leb]. now rewrite Nat.sub_0_r.
    - intros x I. apply in_map_iff in I as ((i & j) & <- & I). cbn [fst snd]. pose proof (in_combine_l _ _ _ _ I) as I1. apply in_combine_r in I. apply in_seq in I1.
      rewrite Forall_forall in F. specialize (F _ I). destruct (Nat.ltb_spec i r), (Nat.ltb_spec j c); (lia || reflexivity).
  Qed.
  Lemma coo_cols r c (l : list nat) : length l = c -> Forall (fun x => x < r)%nat l ->
    exists M : mat K, cooMatrix r c (map (fun p => (fst p, snd p, 1)) (combine l (seq 0 c))) = Some M /\ m_rows M = r /\ m_cols M = c /\
    forall i j, m_at M i j = match nth_error l j with Some x => if x =? i then 1 else 0 | None => 0 end.
  Proof.
    intros L F. unfold cooMatrix. rewrite (proj2 (forallb_forall _ _)).
    - eexists. split; [reflexivity|]. split; [reflexivity|]. split; [reflexivity|]. intros i j. cbn [m_at]. rewrite bsum_map, (combine_swap (seq 0 c) l), bsum_map. cbn [fst snd].
      subst c. pose proof (bsum_pairs j i l 0) as B. cbn [Nat.leb] in B. rewrite Nat.sub_0_r in B. rewrite <- B. apply bsum_ext. intros p _. now rewrite andb_comm.
    - intros x I. apply in_map_iff in I as ((i & j) & <- & I). cbn [fst snd]. pose proof (in_combine_l _ _ _ _ I) as I1. apply in_combine_r in I. apply in_seq in I.
      rewrite Forall_forall in F. specialize (F _ I1). destruct (Nat.ltb_spec i r), (Nat.ltb_spec j c); (lia || reflexivity).
  Qed.
  Lemma pick (n : nat) (a : nat) (f : nat -> K) : (a < n)%nat -> bsum (seq 0 n) (fun j => mul (if a =? j then 1 else 0) (f j)) = f a.
  Proof.
    intro L. rewrite (@bsum_single K nat Nat.eq_dec (seq 0 n) a).
    - rewrite Nat.eqb_refl. ring.
    - apply seq_NoDup.
    - apply in_seq. lia.
    - intros x _ N. destruct (Nat.eqb_spec a x); [congruence|ring].
  Qed.

  Variables (g : sgrid) (ins : Z -> nat).
  Hypotheses (G : gridOk g) (NI : noIsolatedVertex g) (IO : insertionOrder g ins) (POS : (0 < g_n2 g)%Z).
  Let n := Z.to_nat (g_n2 g).

  Lemma p1_whole_K : exists m : dofmap K, p1Assign g (wholeGrid g) false = Some m /\ globalDofCount m = n /\
    forall e, In e (g_elts g) -> zget (dm_l2g m) (s_index e) = Some (s_verts e).
  Proof.
    destruct (@p1_core K g (wholeGrid g) false G (whole_fits' g)) as (m & vs & E & C & _ & SS & LV & IV & P).
    assert (V : vs = zrange (g_n2 g)).
    { apply sortedZ_unique; [exact SS|apply zrange_SS|]. intro v. rewrite IV, in_zrange. unfold usedVertex. rewrite whole_holds by lia. cbn [gridCounts]. split; [tauto|intro H; split; [exact H|discriminate]]. }
    exists m. split; [exact E|]. split; [rewrite <- LV, V; apply zrange_length|].
    intros e I. destruct (P e I) as (ds & D1 & D2 & D3 & D4).
    rewrite D1. f_equal. apply nth_error_ext. intro k. destruct (nth_error (s_verts e) k) as [v|] eqn:Ev.
    - destruct (D4 k v Ev) as (d & Ed & [(-> & N)|(_ & _ & P0 & N)]).
      + exfalso. apply N. split; [|discriminate]. rewrite whole_holds by lia. destruct G as (_ & _ & _ & RV & _). apply (RV e); [exact I|eapply nth_error_In; eauto].
      + rewrite Ed. f_equal. rewrite V in N. pose proof (@zget_zrange (g_n2 g) d) as Z. unfold zget in Z. destruct (Z.ltb_spec d 0); [lia|].
        assert (Z.to_nat d < length (zrange (g_n2 g)))%nat as LT by (apply nth_error_Some; congruence). rewrite zrange_length in LT.
        rewrite Z in N by lia. congruence.
    - apply nth_error_None in Ev. apply nth_error_None. lia.
  Qed.

  Definition keeps (arr arr' : list Z) := forall w, (0 <= w < g_n2 g)%Z -> nth_error arr (ins w) = Some w -> nth_error arr' (ins w) = Some w.
  Lemma corner_ok dofs vs : forall ind arr, (forall k, nth_error dofs (ind + k) = nth_error vs k) -> (forall v, In v vs -> (0 <= v < g_n2 g)%Z) -> length arr = n ->
    exists arr', cornerLoop ins dofs ind vs arr = Some arr' /\ length arr' = n /\ keeps arr arr' /\ forall v, In v vs -> nth_error arr' (ins v) = Some v.
  Proof.
    induction vs as [|v r IH]; intros ind arr D R L; cbn [cornerLoop]. { exists arr. repeat split; auto; [intros w _ H; exact H|easy]. }
    pose proof (D 0%nat) as D0. rewrite Nat.add_0_r in D0. rewrite D0. cbn [nth_error].
    assert (Rv := R v (or_introl eq_refl)). assert (Iv := proj1 IO v Rv).
    destruct (zset_Some arr (Z.of_nat (ins v)) v) as (a1 & E1); [fold n in Iv; lia|]. rewrite E1.
    assert (GET : forall k, nth_error a1 k = if (k =? ins v)%nat then Some v else nth_error arr k).
    { intro k. rewrite <- !zget_nat. erewrite zset_get by exact E1. destruct (Z.eqb_spec (Z.of_nat k) (Z.of_nat (ins v))), (Nat.eqb_spec k (ins v)); try lia; reflexivity. }
    destruct (IH (S ind) a1) as (a2 & E2 & L2 & K2 & P2).
    - intro k. rewrite Nat.add_succ_comm. apply (D (S k)).
    - intros w I. apply R. now right.
    - erewrite zset_length by exact E1. exact L.
    - assert (KP : keeps arr a1). { intros w Rw H. rewrite GET. destruct (Nat.eqb_spec (ins w) (ins v)) as [E|]; [|exact H]. f_equal. symmetry. now apply (proj2 IO). }
      exists a2. split; [exact E2|]. split; [exact L2|]. split. { intros w Rw H. apply K2; [exact Rw|]. now apply KP. }
      intros w [<-|I]; [|now apply P2]. apply K2; [exact Rv|]. rewrite GET, Nat.eqb_refl. reflexivity.
  Qed.
  Lemma elements_ok l2g es : (forall e, In e es -> In e (g_elts g) /\ zget l2g (s_index e) = Some (s_verts e)) -> forall arr, length arr = n ->
    exists arr', elementsLoop ins l2g es arr = Some arr' /\ length arr' = n /\ keeps arr arr' /\
     forall e v, In e es -> In v (s_verts e) -> nth_error arr' (ins v) = Some v.
  Proof.
    induction es as [|e r IH]; intros H arr L; cbn [elementsLoop]. { exists arr. repeat split; auto; [intros w _ X; exact X|easy]. }
    destruct (H e (or_introl eq_refl)) as (Ie & E). rewrite E.
    assert (RG : forall v, In v (s_verts e) -> (0 <= v < g_n2 g)%Z). { intros v I. destruct G as (_ & _ & _ & RV & _). now apply (RV e). }
    destruct (@corner_ok (s_verts e) (s_verts e) 0 arr) as (a1 & E1 & L1 & K1 & P1); [reflexivity|exact RG|exact L|]. rewrite E1.
    destruct (IH (fun x I => H x (or_intror I)) a1 L1) as (a2 & E2 & L2 & K2 & P2). exists a2. split; [exact E2|]. split; [exact L2|]. split.
    - intros w Rw X. apply K2; [exact Rw|]. now apply K1.
    - intros x v [<-|I] J; [|now apply (P2 x)]. apply K2; [now apply RG|]. now apply P1.
  Qed.
  Lemma ins_sur k : (k < n)%nat -> exists v, (0 <= v < g_n2 g)%Z /\ ins v = k.
  Proof.
    intro L. assert (I : incl (seq 0 n) (map ins (zrange (g_n2 g)))).
    { apply NoDup_length_incl.
      - assert (ND : NoDup (zrange (g_n2 g))). { pose proof (zrange_SS (g_n2 g)) as S. clear -S. induction S as [|a l S IH F]; constructor; [|exact IH]. intro I. rewrite Forall_forall in F. specialize (F _ I). lia. }
        assert (R : forall x, In x (zrange (g_n2 g)) -> (0 <= x < g_n2 g)%Z) by (intros x; apply in_zrange). destruct IO as (_ & INJ). clear -ND R INJ.
        induction ND as [|a l N ND IH]; cbn; constructor.
        + intro I. apply in_map_iff in I as (b & E & I). apply N. replace a with b; [exact I|]. apply INJ; [apply R; now right|apply R; now left|exact E].
        + apply IH. intros x I. apply R. now right.
      - rewrite map_length, zrange_length, seq_length. unfold n. lia.
      - intros x I. apply in_map_iff in I as (v & <- & I). apply in_zrange in I. apply in_seq. pose proof (proj1 IO v I). unfold n. lia. }
    assert (J : In k (seq 0 n)) by (apply in_seq; lia). apply I in J. apply in_map_iff in J as (v & E & J). exists v. split; [now apply in_zrange|exact E].
  Qed.
  Lemma p1_matrix (m : dofmap K) : globalDofCount m = n -> (forall e, In e (g_elts g) -> zget (dm_l2g m) (s_index e) = Some (s_verts e)) ->
    exists M, p1DofToVertexMatrix g ins m = Some M /\ m_rows M = n /\ m_cols M = n /\
     (forall v j, (0 <= v < g_n2 g)%Z -> m_at M (ins v) j = if (Z.to_nat v =? j)%nat then 1 else 0).
  Proof.
    intros GC E. unfold p1DofToVertexMatrix. fold (globalDofCount m). rewrite GC.
    destruct (@elements_ok (dm_l2g m) (g_elts g)) with (arr := repeat 0%Z n) as (arr & E1 & L & _ & P).
    { intros e I. split; [exact I|now apply E]. } { apply repeat_length. } rewrite E1.
    assert (AV : forall v, (0 <= v < g_n2 g)%Z -> nth_error arr (ins v) = Some v).
    { intros v R. destruct (NI R) as (e & I & V). apply (P e v I V). }
    assert (AR : forall z, In z arr -> (0 <= z < g_n2 g)%Z).
    { intros z I. apply In_nth_error in I as (k & Ek). assert (LK : (k < n)%nat) by (rewrite <- L; apply nth_error_Some; congruence).
      destruct (ins_sur LK) as (v & R & <-). rewrite (AV v R) in Ek. congruence. }
    set (l := map Z.to_nat arr).
    assert (LL : length l = n) by (unfold l; now rewrite map_length).
    assert (NP : (0 < n)%nat) by (unfold n; lia).
    assert (EL : map (fun e : nat * Z * K => (fst (fst e), Z.to_nat (snd (fst e)), snd e)) (map (fun p : nat * Z => (fst p, snd p, 1)) (combine (seq 0 n) arr)) =
                 map (fun p => (fst p, snd p, 1)) (combine (seq 0 n) l)).
    { unfold l. rewrite map_map. cbn [fst snd]. clear. generalize (seq 0 n) as s. intro s. revert s. induction arr as [|a r IH]; intros [|x s]; cbn; [reflexivity..|]. now rewrite IH. }
    assert (FST : map (fun e : nat * nat * K => fst (fst e)) (map (fun p => (fst p, snd p, 1)) (combine (seq 0 n) l)) = seq 0 n).
    { rewrite map_map. cbn [fst]. rewrite <- LL. clear. generalize 0%nat as b. induction l as [|a r IH]; intro b; cbn; [reflexivity|]. now rewrite IH. }
    assert (SND : map (fun e : nat * nat * K => snd (fst e)) (map (fun p => (fst p, snd p, 1)) (combine (seq 0 n) l)) = l).
    { rewrite map_map. cbn [fst snd]. rewrite <- LL. clear. generalize 0%nat as b. induction l as [|a r IH]; intro b; cbn; [reflexivity|]. now rewrite IH. }
    assert (MR : S (list_max (seq 0 n)) = n).
    { assert (A : (list_max (seq 0 n) <= n - 1)%nat). { apply list_max_le. apply Forall_forall. intros x I. apply in_seq in I. lia. }
      assert (B : (n - 1 <= list_max (seq 0 n))%nat). { pose proof (proj1 (list_max_le (seq 0 n) (list_max (seq 0 n))) (Nat.le_refl _)) as F. rewrite Forall_forall in F. apply F. apply in_seq. lia. }
      lia. }
    assert (MC : S (list_max l) = n).
    { assert (A : (list_max l <= n - 1)%nat). { apply list_max_le. apply Forall_forall. intros x I. unfold l in I. apply in_map_iff in I as (z & <- & I). apply AR in I. unfold n. lia. }
      assert (B : (n - 1 <= list_max l)%nat).
      { pose proof (proj1 (list_max_le l (list_max l)) (Nat.le_refl _)) as F. rewrite Forall_forall in F. apply F. unfold l. apply in_map_iff. exists (g_n2 g - 1)%Z. split; [unfold n; lia|].
        apply (nth_error_In _ (ins (g_n2 g - 1)%Z)). apply AV. lia. }
      lia. }
    unfold cooInfer. destruct (map (fun p : nat * Z => (fst p, snd p, 1)) (combine (seq 0 n) arr)) as [|x0 xs] eqn:EX.
    { exfalso. apply (f_equal (@length _)) in EX. rewrite map_length, combine_length, seq_length, L in EX. cbn in EX. lia. }
    rewrite <- EX in *. rewrite (proj2 (forallb_forall _ _)).
    - cbv zeta. rewrite EL, FST, SND, MR, MC. destruct (@coo_rows n n l LL) as (M & EM & R & C & AT).
      { apply Forall_forall. intros x I. unfold l in I. apply in_map_iff in I as (z & <- & I). apply AR in I. unfold n. lia. }
      exists M. split; [exact EM|]. split; [exact R|]. split; [exact C|]. intros v j Rv. rewrite AT. unfold l. rewrite nth_error_map, (AV v Rv). reflexivity.
    - intros x I. apply in_map_iff in I as ((i & z) & <- & I). cbn [fst snd]. apply in_combine_r in I. apply AR in I. apply Z.leb_le. lia.
  Qed.
End Proofs.

(** C174.  For the continuous P1 space on a grid (its vertices inserted in any order) p1_dof_to_vertex_matrix takes the coefficient
    vector x of a function to its vertex values: entry ins v of the product is the coefficient of the dof at vertex v, for every
    corner v of every element. *)
Theorem C174_dof_to_vertex : forall (K : star_ring) g ins, gridOk g -> noIsolatedVertex g -> insertionOrder g ins -> (0 < g_n2 g)%Z ->
  exists (m : dofmap K) M, p1Assign g (wholeGrid g) false = Some m /\ p1DofToVertexMatrix g ins m = Some M /\
   m_rows M = Z.to_nat (g_n2 g) /\ m_cols M = globalDofCount m /\
   forall e i v d x, In e (g_elts g) -> nth_error (s_verts e) i = Some v -> globalDof m (s_index e) i d ->
     applied M x (ins v) = x (Z.to_nat d).
Proof.
  intros K g ins G NI IO POS. destruct (@p1_whole_K K g G POS) as (m & E & GC & L). destruct (@p1_matrix K g ins G NI IO POS m GC L) as (M & EM & R & C & AT).
  exists m, M. split; [exact E|]. split; [exact EM|]. split; [exact R|]. split; [congruence|].
  intros e i v d x I V (ds & D & N). rewrite (L e I) in D. injection D as <-. assert (d = v) by congruence. subst d.
  assert (RV : (0 <= v < g_n2 g)%Z). { destruct G as (_ & _ & _ & RV & _). apply (RV e); [exact I|eapply nth_error_In; eauto]. }
  unfold applied. rewrite C. rewrite (@bsum_ext K _ _ _ (fun j => mul (if (Z.to_nat v =? j)%nat then one else zero) (x j))) by (intros; now rewrite AT). apply pick. lia.
Qed.
Print Assumptions C174_dof_to_vertex.

(** C175.  bm: the mesh vertex of each boundary vertex; d2v: the mesh vertex of each FEniCS dof.  Applied to the coefficients x of a
    FEniCS function the trace matrix gives the BEM++ dof of a corner v the coefficient of the FEniCS dof at the mesh vertex that v is. *)
Theorem C175_trace : forall (K : star_ring) g ins bm nv d2v, gridOk g -> noIsolatedVertex g -> insertionOrder g ins -> (0 < g_n2 g)%Z ->
  length bm = Z.to_nat (g_n2 g) -> Forall (fun w => w < nv) bm -> length d2v = nv -> NoDup d2v -> Forall (fun w => w < nv) d2v ->
  exists (m : dofmap K) T, p1Assign g (wholeGrid g) false = Some m /\ p1Trace g ins m bm nv d2v = Some T /\
   m_rows T = globalDofCount m /\ m_cols T = nv /\
   forall e i v d x j w, In e (g_elts g) -> nth_error (s_verts e) i = Some v -> globalDof m (s_index e) i d ->
     nth_error bm (ins v) = Some w -> nth_error d2v j = Some w -> applied T x (Z.to_nat d) = x j.
Proof.
  intros K g ins bm nv d2v G NI IO POS LB FB LD ND FD. destruct (@p1_whole_K K g G POS) as (m & E & GC & L). destruct (@p1_matrix K g ins G NI IO POS m GC L) as (M & EM & R & C & AT).
  destruct (@coo_rows K (length bm) nv bm eq_refl FB) as (B & EB & RB & CB & AB). destruct (@coo_cols K nv nv d2v LD FD) as (D & ED & RD & CD & AD).
  exists m. unfold p1Trace. rewrite EM, EB, LD, Nat.eqb_refl, ED. unfold spMul. cbn [mT m_cols]. rewrite R, RB, LB, Nat.eqb_refl. cbn [mMul m_cols]. rewrite CB, RD, Nat.eqb_refl.
  eexists. split; [exact E|]. split; [reflexivity|]. split; [cbn; congruence|]. split; [cbn; exact CD|].
  intros e i v d x j w I V (ds & DD & N) HB HD. rewrite (L e I) in DD. injection DD as <-. assert (d = v) by congruence. subst d.
  assert (RV : (0 <= v < g_n2 g)%Z). { destruct G as (_ & _ & _ & RV & _). apply (RV e); [exact I|eapply nth_error_In; eauto]. }
  set (n := Z.to_nat (g_n2 g)) in *.
  assert (WB : w < nv). { rewrite Forall_forall in FB. apply FB. eapply nth_error_In; eauto. }
  assert (JB : j < nv). { rewrite <- LD. apply nth_error_Some. congruence. }
  assert (PB : forall b', bsum (seq 0 n) (fun b => mul (m_at M b (Z.to_nat v)) (m_at B b b')) = m_at B (ins v) b').
  { intro b'. rewrite (@bsum_ext K _ _ _ (fun b => mul (if (ins v =? b)%nat then one else zero) (m_at B b b'))).
    - rewrite (@pick K _ _ (fun b => m_at B b b')); [reflexivity|]. unfold n. now apply (proj1 IO).
    - intros b Ib. apply in_seq in Ib. destruct (@ins_sur g ins IO b) as (u & Ru & <-); [unfold n in *; lia|]. rewrite AT by exact Ru. f_equal.
      destruct (Nat.eqb_spec (Z.to_nat u) (Z.to_nat v)) as [Q|Q], (Nat.eqb_spec (ins v) (ins u)) as [Q'|Q']; try reflexivity.
      + exfalso. apply Q'. f_equal. lia.
      + exfalso. apply Q. f_equal. symmetry. now apply (proj2 IO). }
  unfold applied. cbn [m_cols mMul m_at mT m_rows]. rewrite CD. rewrite R, CB.
  rewrite (@bsum_ext K _ _ _ (fun k => mul (if (j =? k)%nat then one else zero) (x k))); [rewrite (@pick K _ _ x); [reflexivity|exact JB]|].
  intros k Ik. apply in_seq in Ik. f_equal.
  rewrite (@bsum_ext K _ _ _ (fun b' => mul (if (w =? b')%nat then one else zero) (m_at D b' k))).
  - rewrite (@pick K _ _ (fun b => m_at D b k)) by exact WB. rewrite AD. destruct (nth_error d2v k) as [y|] eqn:Ey; [|apply nth_error_None in Ey; lia].
    destruct (Nat.eqb_spec y w) as [->|Q], (Nat.eqb_spec j k) as [Q'|Q']; try reflexivity.
    + exfalso. apply Q'. apply (proj1 (NoDup_nth_error d2v) ND); [lia|congruence].
    + exfalso. subst k. congruence.
  - intros b' _. rewrite PB, AB, HB. reflexivity.
Qed.
Print Assumptions C175_trace.
(** two triangles with four vertices, inserted in the opposite order *)
Local Open Scope Z_scope.
Definition exGrid : sgrid := SGrid [SElt 0 0 [(0, [0; 1]); (1, [0; 2]); (2, [1; 2])] [0; 1; 2]; SElt 1 0 [(2, [2; 1]); (3, [2; 3]); (4, [1; 3])] [2; 1; 3]] 5 4.
Definition exIns (v : Z) : nat := Z.to_nat (3 - v).
Example C174_ex : gridOk exGrid /\ noIsolatedVertex exGrid /\ insertionOrder exGrid exIns.
Proof.
  assert (A : forall e, In e (g_elts exGrid) -> e = SElt 0 0 [(0, [0; 1]); (1, [0; 2]); (2, [1; 2])] [0; 1; 2] \/ e = SElt 1 0 [(2, [2; 1]); (3, [2; 3]); (4, [1; 3])] [2; 1; 3]) by (cbn; intuition congruence).
  split; [|split].
  - unfold gridOk. split; [cbn; repeat constructor; cbn; intuition lia|]. split; [|split; [|split]].
    + intros e I. destruct (A e I) as [->| ->]; cbn; lia.
    + intros e i I. destruct (A e I) as [->| ->]; unfold hasFacet; cbn; intros H; intuition lia.
    + intros e i I. destruct (A e I) as [->| ->]; unfold hasVertex; cbn; intros H; intuition lia.
    + intros e f i I. destruct (A e I) as [->| ->]; unfold hasVertex; cbn; intros H J; repeat (destruct H as [<-|H]; [cbn in J; tauto|]); destruct H.
  - intros v R. cbn in R. destruct (Z.eq_dec v 3) as [->|N]; [exists (SElt 1 0 [(2, [2; 1]); (3, [2; 3]); (4, [1; 3])] [2; 1; 3])|exists (SElt 0 0 [(0, [0; 1]); (1, [0; 2]); (2, [1; 2])] [0; 1; 2])]; unfold hasVertex; (split; [cbn; auto|]); cbn; lia.
  - split; [intros v R; unfold exIns; change (g_n2 exGrid) with 4 in *; lia|intros v w R R2 H; unfold exIns in H; change (g_n2 exGrid) with 4 in *; lia].
Qed.
(** FEniCS has five vertices, the boundary vertices are its vertices 4, 0, 1, 3; dofs in another order *)
Example C175_ex : match p1Assign (K := Zsr) exGrid (wholeGrid exGrid) false with
  | Some m => match p1Trace exGrid exIns m [4; 0; 1; 3]%nat 5 [1; 2; 0; 4; 3]%nat with
              | Some T => map (applied T (fun j => Z.of_nat j + 10)) (seq 0 4) = [14; 10; 12; 13] | None => False end
  | None => False end.
Proof. vm_compute. reflexivity. Qed.
