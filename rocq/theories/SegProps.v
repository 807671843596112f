From Coq Require Import List ZArith Bool Lia Sorted.
Import ListNotations.
From Verif Require Import Base SegModel SegSpec SegProofs.
Local Open Scope Z_scope.

(** C25: contains() is total on codimensions 0..3 and throws on all others; on segments of one
    grid the set operations are the Boolean combinations, and yield well-formed segments. *)
Theorem C25_set_algebra (s o : segment) :
  wellFormed s -> wellFormed o -> (forall c, counts o c = counts s c) ->
  (forall c i, (c < 4)%nat ->
     (holds s c i \/ contains s (Z.of_nat c) i = Some false) /\
     (holds (complement s) c i <-> 0 <= i < counts s c /\ ~ holds s c i) /\
     (holds (union_ s o) c i <-> holds s c i \/ holds o c i) /\
     (holds (intersection s o) c i <-> holds s c i /\ holds o c i) /\
     (holds (difference s o) c i <-> holds s c i /\ ~ holds o c i)) /\
  (forall c i, c < 0 \/ 3 < c -> contains s c i = None) /\
  (wellFormed (complement s) /\ wellFormed (union_ s o) /\ wellFormed (intersection s o) /\ wellFormed (difference s o)) /\
  (forall c, counts (complement s) c = counts s c /\ counts (union_ s o) c = counts s c /\
             counts (intersection s o) c = counts s c /\ counts (difference s o) c = counts s c).
Proof.
  intros Hs Ho E. split; [|split; [|split]].
  - intros c i Hc. split; [now apply holds_decided|]. split; [now apply complement_holds|].
    split; [now apply union_holds|]. split; [now apply intersection_holds|now apply difference_holds].
  - intros c i H. now apply contains_reject.
  - split; [now apply complement_wf|]. split; [now apply union_wf|]. split; [now apply intersection_wf|now apply difference_wf].
  - intros c. repeat split.
Qed.
Print Assumptions C25_set_algebra.

(** markExcludedEntities: in-range excluded entities carry the mark, all others 0. *)
Theorem C25_marks (s : segment) (c : nat) (mark : Z) :
  (c < 4)%nat -> 0 <= counts s c -> (forall x, In x (excluded s c) -> 0 <= x < counts s c) ->
  exists r, markExcludedEntities s (Z.of_nat c) mark = Some r /\ Z.of_nat (length r) = counts s c /\
    forall i, 0 <= i < counts s c ->
      (holds s c i -> nth_error r (Z.to_nat i) = Some 0) /\ (~ holds s c i -> nth_error r (Z.to_nat i) = Some mark).
Proof.
  intros Hc Hn Hx. unfold markExcludedEntities.
  replace ((Z.of_nat c <? 0) || (3 <? Z.of_nat c)) with false.
  2:{ symmetry. apply orb_false_iff. split; apply Z.ltb_ge; lia. }
  rewrite Nat2Z.id.
  destruct (@markLoop_ok mark (excluded s c) (repeat 0 (Z.to_nat (counts s c)))) as (r & E & L & H).
  { intros x Hi. rewrite repeat_length, Z2Nat.id by lia. now apply Hx. }
  rewrite repeat_length in L. exists r. split; [exact E|]. split; [rewrite L; lia|]. intros i Hi.
  specialize (H i). rewrite repeat_length, Z2Nat.id in H by lia. specialize (H Hi). rewrite H, holds_iff by exact Hc.
  destruct (smem i (excluded s c)) eqn:Em.
  - apply smem_In in Em. split; [tauto|reflexivity].
  - apply smem_false in Em. split; [intros _|tauto]. apply nth_error_repeat. lia.
Qed.
Print Assumptions C25_marks.

Definition exS : segment := Segment (fun c => match c with 0%nat => 4 | _ => 0 end) (fun c => match c with 0%nat => [1; 3] | _ => [] end).
Definition exO : segment := Segment (fun c => match c with 0%nat => 4 | _ => 0 end) (fun c => match c with 0%nat => [0; 1] | _ => [] end).
Example C25_instance :
  wellFormed exS /\ wellFormed exO /\ (forall c, counts exO c = counts exS c) /\
  excluded (complement exS) 0 = [0; 2] /\ excluded (union_ exS exO) 0 = [1] /\
  excluded (intersection exS exO) 0 = [0; 1; 3] /\ excluded (difference exS exO) 0 = [1; 2; 3] /\
  markExcludedEntities exS 0 7 = Some [0; 7; 0; 7].
Proof.
  split; [|split; [|split; [reflexivity|vm_compute; repeat split; reflexivity]]];
    intros [|c]; cbn; (split; [repeat constructor; lia|intros x Hx; cbn in Hx; lia]).
Qed.

(** C65: the public constructor accepts any std::set<int>; with a negative excluded index the
    complement is wrong. *)
Definition exNeg : segment := Segment (fun _ => 2) (fun _ => [-1; 0]).
Theorem C65_complement_partial (s : segment) (c : nat) (i : Z) :
  (c < 4)%nat -> wellFormed s -> (holds (complement s) c i <-> 0 <= i < counts s c /\ ~ holds s c i).
Proof. apply complement_holds. Qed.
Print Assumptions C65_complement_partial.
Theorem C65_complement_refuted :
  exists s, (forall c, Sorted Z.lt (excluded s c)) /\ holds s 0 1 /\ holds (complement s) 0 1.
Proof. exists exNeg. split; [intros c; cbn; repeat constructor; lia|]. split; vm_compute; reflexivity. Qed.
Print Assumptions C65_complement_refuted.

(** C26 *)
Theorem C26_closed_domain (g : sgrid) (D : list Z) :
  gridOk g ->
  (forall e, In e (g_elts g) -> (holds (closedDomain g D) 0 (s_index e) <-> inDomain D e)) /\
  (forall i, holds (closedDomain g D) 0 i -> exists e, In e (g_elts g) /\ s_index e = i) /\
  (forall i, holds (closedDomain g D) 1 i <-> exists e, In e (g_elts g) /\ inDomain D e /\ hasFacet e i) /\
  (forall i, holds (closedDomain g D) 2 i <-> exists e, In e (g_elts g) /\ inDomain D e /\ hasVertex e i) /\
  wellFormed (closedDomain g D).
Proof.
  intros G. pose proof G as (Hnd & G0 & G1 & G2 & G3).
  split; [|split; [|split; [|split; [|now apply closed_wf]]]].
  - intros e He. destruct (closed_spec g D (s_index e)) as (H0 & _). rewrite H0. split.
    + intros [_ H]. now apply H.
    + intros Hd. split; [now apply G0|]. intros e' He' E. now rewrite (@index_unique g e' e G He' He E).
  - intros i Hi. destruct (closed_spec g D i) as (H0 & _). apply H0 in Hi. apply index_covered; tauto.
  - intros i. destruct (closed_spec g D i) as (_ & H1 & _). rewrite H1. split; [tauto|].
    intros (e & He & Hd & Hf). split; [now apply (G1 e)|]. exists e. auto.
  - intros i. destruct (closed_spec g D i) as (_ & _ & H2 & _). rewrite H2. split; [tauto|].
    intros (e & He & Hd & Hf). split; [now apply (G2 e)|]. exists e. auto.
Qed.
Print Assumptions C26_closed_domain.

(** the open domain, for grids where no facet has more than 256 incident domain elements *)
Theorem C26_open_domain (g : sgrid) (D : list Z) :
  gridOk g -> (forall i, (incidence g D i <= 256)%nat) ->
  (forall e, In e (g_elts g) -> (holds (openDomain g D) 0 (s_index e) <-> inDomain D e)) /\
  (forall i, holds (openDomain g D) 0 i -> exists e, In e (g_elts g) /\ s_index e = i) /\
  (forall i, holds (openDomain g D) 1 i <->
     0 <= i < g_n1 g /\ (forall e, In e (g_elts g) -> hasFacet e i -> inDomain D e) /\ incidence g D i <> 1%nat) /\
  (forall i, holds (openDomain g D) 2 i <->
     0 <= i < g_n2 g /\ (forall e, In e (g_elts g) -> hasVertex e i -> inDomain D e) /\
     forall e f, In e (g_elts g) -> In f (s_facets e) -> In i (snd f) -> incidence g D (fst f) <> 1%nat) /\
  wellFormed (openDomain g D).
Proof.
  intros G Hsmall. pose proof G as (Hnd & G0 & G1 & G2 & G3).
  assert (M : forall i, Z.of_nat (incidence g D i) mod 256 <> 1 <-> incidence g D i <> 1%nat).
  { intros i. specialize (Hsmall i). destruct (Nat.eq_dec (incidence g D i) 256) as [->|Hne]; [split; intros _; discriminate|].
    rewrite Z.mod_small by lia. lia. }
  split; [|split; [|split; [|split; [|now apply open_wf]]]].
  - intros e He. destruct (open_spec g D (s_index e)) as (H0 & _). rewrite H0. split.
    + intros [_ H]. now apply H.
    + intros Hd. split; [now apply G0|]. intros e' He' E. now rewrite (@index_unique g e' e G He' He E).
  - intros i Hi. destruct (open_spec g D i) as (H0 & _). apply H0 in Hi. apply index_covered; tauto.
  - intros i. destruct (open_spec g D i) as (_ & H1 & _). rewrite H1, M. reflexivity.
  - intros i. destruct (open_spec g D i) as (_ & _ & H2 & _). rewrite H2.
    assert (A : forall e f, In e (g_elts g) -> In f (s_facets e) -> 0 <= fst f < g_n1 g).
    { intros e f He Hf. apply (G1 e); [exact He|]. unfold hasFacet. now apply in_map. }
    split.
    + intros (Hr & Hv & H). split; [exact Hr|]. split; [exact Hv|]. intros e f He Hf Hi. apply M. eapply H; eauto.
    + intros (Hr & Hv & H). split; [exact Hr|]. split; [exact Hv|]. intros e f He Hf Hi _. apply M. eapply H; eauto.
Qed.
Print Assumptions C26_open_domain.

(** Two triangles of domain 1 and one of domain 2 in a strip 0-1-2-3-4:
    triangles (0,1,2), (1,3,2), (2,3,4). *)
Definition exG : sgrid := SGrid
  [SElt 0 1 [(0, [0; 1]); (1, [0; 2]); (2, [1; 2])] [0; 1; 2];
   SElt 1 1 [(3, [1; 3]); (2, [1; 2]); (4, [3; 2])] [1; 3; 2];
   SElt 2 2 [(4, [2; 3]); (5, [2; 4]); (6, [3; 4])] [2; 3; 4]] 7 5.
Example C26_instance :
  gridOk exG /\
  map (fun i => contains (openDomain exG [1]) 0 i) [0;1;2] = [Some true; Some true; Some false] /\
  map (fun i => contains (openDomain exG [1]) 1 i) [0;1;2;3;4;5;6] = map Some [false; false; true; false; false; false; false] /\
  map (fun i => contains (closedDomain exG [1]) 1 i) [0;1;2;3;4;5;6] = map Some [true; true; true; true; true; false; false] /\
  map (fun i => contains (closedDomain exG [1]) 2 i) [0;1;2;3;4] = map Some [true; true; true; true; false].
Proof.
  split; [|vm_compute; repeat split; reflexivity].
  assert (E : forall e, In e (g_elts exG) -> e = nth 0 (g_elts exG) (SElt 0 0 [] []) \/ e = nth 1 (g_elts exG) (SElt 0 0 [] []) \/ e = nth 2 (g_elts exG) (SElt 0 0 [] [])).
  { cbn [g_elts exG In nth]. intuition. }
  split; [repeat constructor; cbn; lia|]. split; [intros e He; destruct (E e He) as [->|[->| ->]]; cbn; lia|].
  unfold hasFacet, hasVertex.
  split; [intros e i He; destruct (E e He) as [->|[->| ->]]; cbn; lia|].
  split; [intros e i He; destruct (E e He) as [->|[->| ->]]; cbn; lia|].
  intros e f i He Hf. destruct (E e He) as [->|[->| ->]]; cbn [nth exG g_elts s_facets s_verts] in *; destruct Hf as [<-|[<-|[<-|[]]]]; cbn; lia.
Qed.
Example C26_instance_incidence : forallb (fun i => Nat.leb (incidence exG [1] i) 2) (zrange 7) = true.
Proof. vm_compute. reflexivity. Qed.

(** C64: without the bound the unsigned char counter wraps: a book of 257 triangles sharing
    edge 0, all in the domain, loses the shared edge and its two vertices. *)
Theorem C64_high_valence_partial (g : sgrid) (D : list Z) (i : Z) :
  (holds (openDomain g D) 1 i <->
     0 <= i < g_n1 g /\ (forall e, In e (g_elts g) -> hasFacet e i -> inDomain D e) /\ Z.of_nat (incidence g D i) mod 256 <> 1).
Proof. apply (open_spec g D i). Qed.
Print Assumptions C64_high_valence_partial.
Definition page (k : Z) : selt :=
  SElt k 1 [(0, [0; 1]); (2 * k + 1, [0; k + 2]); (2 * k + 2, [1; k + 2])] [0; 1; k + 2].
Definition book : sgrid := SGrid (map page (zrange 257)) 515 259.
Lemma book_incidence : incidence book [1] 0 = 257%nat.
Proof. vm_compute. reflexivity. Qed.
Lemma book_ok : gridOk book.
Proof.
  assert (E : forall e, In e (g_elts book) -> exists k, 0 <= k < 257 /\ e = page k).
  { intros e He. unfold book in He. cbn [g_elts] in He. apply in_map_iff in He. destruct He as (k & <- & Hk). apply in_zrange in Hk. eauto. }
  unfold gridOk. replace (g_n0 book) with 257 by (vm_compute; reflexivity). cbn [g_n1 g_n2 book].
  split.
  { unfold book; cbn [g_elts]. rewrite map_map. cbn [s_index page]. rewrite map_id. unfold zrange.
    apply FinFun.Injective_map_NoDup; [intros a b; lia|apply seq_NoDup]. }
  unfold hasFacet, hasVertex.
  split; [intros e He; destruct (E e He) as (k & Hk & ->); cbn [page s_index]; lia|].
  split; [intros e i He; destruct (E e He) as (k & Hk & ->); cbn [page s_facets map fst In]; lia|].
  split; [intros e i He; destruct (E e He) as (k & Hk & ->); cbn [page s_verts In]; lia|].
  intros e f i He Hf. destruct (E e He) as (k & Hk & ->). cbn [page s_facets s_verts In] in *.
  destruct Hf as [<-|[<-|[<-|[]]]]; cbn [snd In]; lia.
Qed.
Theorem C64_high_valence_refuted :
  exists g D i, gridOk g /\ 0 <= i < g_n1 g /\ (forall e, In e (g_elts g) -> inDomain D e) /\
    incidence g D i <> 1%nat /\ ~ holds (openDomain g D) 1 i.
Proof.
  exists book, [1], 0. split; [exact book_ok|]. split; [cbn; lia|].
  split. { intros e He. unfold book in He. cbn [g_elts] in He. apply in_map_iff in He. destruct He as (k & <- & _). now left. }
  split; [rewrite book_incidence; discriminate|].
  destruct (open_spec book [1] 0) as (_ & H1 & _). rewrite H1, book_incidence. intros (_ & _ & H). now apply H.
Qed.
Print Assumptions C64_high_valence_refuted.
