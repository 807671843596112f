(** Exporting grids and functions, and importing the result. *)
From Coq Require Import List ZArith Bool Lia Ascii String.
From Verif Require Import Base FileModel FileSpec FileProofs1 FileProofs2 FileProofs3 FileProofs4.
Import ListNotations.
Set Implicit Arguments.
Unset Strict Implicit.
Local Open Scope Z_scope.

Lemma range1_numbers n : range1 n = numbers n.
Proof. unfold range1, numbers. rewrite <- seq_shift, map_map. apply map_ext. intros k. lia. Qed.
Lemma numbers_length n : List.length (numbers n) = n. Proof. unfold numbers. rewrite map_length, seq_length. reflexivity. Qed.
Lemma numbers_nth n k : (k < n)%nat -> nth_error (numbers n) k = Some (Z.of_nat k + 1).
Proof. intros H. unfold numbers. apply (map_nth_error (fun k => Z.of_nat k + 1)). rewrite nth_error_nth' with (d := 0%nat) by (rewrite seq_length; exact H). rewrite seq_nth by exact H. reflexivity. Qed.
Lemma numbers_nth_inv n k z : nth_error (numbers n) k = Some z -> z = Z.of_nat k + 1 /\ (k < n)%nat.
Proof. intros H. assert (L : (k < n)%nat) by (rewrite <- (numbers_length n); apply nth_error_Some; congruence). rewrite (numbers_nth L) in H. inversion H. split; [reflexivity|exact L]. Qed.
Lemma numbers_int32 n : Z.of_nat n < 2 ^ 31 -> Forall int32 (numbers n).
Proof. intros H. apply Forall_forall. intros z Hz. apply In_nth_error in Hz as (k & K). apply numbers_nth_inv in K as (-> & L). unfold int32. lia. Qed.

Section Io.
Variables (io : floatIO) (magnitude : list (V io * V io) -> V io) (zeroV : V io).
Notation addAll := (addAll magnitude zeroV).
Notation seriesData := (seriesData magnitude zeroV).

Lemma addAll_ok grid comp n isreal at_nodes l : forall R I, (forall f, In f l -> f_grid f = grid /\ f_comp f = comp /\ List.length (valuesOf at_nodes f) = n) ->
  (isreal = true <-> I = None) ->
  addAll grid comp n isreal (@TNone io) (valuesOf at_nodes) (Data [] R I) l =
  Ok (Data [] (R ++ map (part at_nodes fst) l) (option_map (fun i => i ++ map (part at_nodes snd) l) I)).
Proof.
  induction l as [|f l IH]; intros R I H D.
  - cbn [FileModel.addAll map]. rewrite app_nil_r. destruct I as [i|]; cbn [option_map]; [rewrite app_nil_r|]; reflexivity.
  - destruct (H f (or_introl eq_refl)) as (H1 & H2 & H3). cbn [FileModel.addAll]. rewrite H1, Nat.eqb_refl. cbn [negb transform]. unfold addData. cbn [c_comp c_points].
    rewrite H2, Z.eqb_refl, H3, Nat.eqb_refl. cbn [andb negb bind d_description d_real d_imag].
    assert (E : forall J, FileModel.addAll magnitude zeroV grid comp n isreal (@TNone io) (valuesOf at_nodes)
      (Data [] (R ++ [Array comp (map (map fst) (valuesOf at_nodes f))]) J) l = FileModel.addAll magnitude zeroV grid comp n isreal (@TNone io) (valuesOf at_nodes) (Data [] (R ++ [part at_nodes fst f]) J) l).
    { intros J. unfold part. rewrite H2. reflexivity. }
    rewrite E. rewrite IH; [|intros g Hg; apply H; now right|].
    + cbn [map]. rewrite <- app_assoc. cbn [app]. f_equal. f_equal. destruct isreal.
      * rewrite (proj1 D eq_refl). reflexivity.
      * destruct I as [i|]; [|discriminate (proj2 D eq_refl)]. cbn [option_map]. rewrite <- app_assoc. unfold part. rewrite H2. reflexivity.
    + destruct isreal; [exact D|]. split; [discriminate|]. intros X. destruct I as [i|]; [discriminate X|]. discriminate (proj2 D eq_refl).
Qed.
Lemma seriesData_ok grid n at_nodes times l : seriesOk grid n at_nodes times l ->
  exists d, seriesData grid n (@TNone io) (valuesOf at_nodes) l = Ok d /\ dataOk n times d /\
  forall ids, dataBlocks at_nodes ids times d = seriesBlocks at_nodes ids times l.
Proof.
  intros (N & L & comp & isreal & H). destruct l as [|f l]; [congruence|].
  destruct (H f (or_introl eq_refl)) as (_ & H2 & H3 & _).
  unfold FileModel.seriesData. cbn [hd_error get bind]. rewrite H2, H3.
  rewrite (@addAll_ok grid comp n isreal at_nodes); [| |destruct isreal; split; congruence].
  2: { intros g Hg. destruct (H g Hg) as (G1 & G2 & _ & G4). repeat split; assumption. }
  eexists. split; [reflexivity|]. set (ll := f :: l) in *.
  assert (R : forallb (@f_isreal io) ll = isreal).
  { destruct isreal; [apply forallb_forall; intros g Hg; apply (H g Hg)|]. cbn [forallb ll]. rewrite H3. reflexivity. }
  assert (Len : forall p g, In g ll -> List.length (a_points (part at_nodes p g)) = n).
  { intros p g Hg. unfold part. cbn [a_points]. rewrite map_length. apply (H g Hg). }
  split.
  - unfold dataOk. cbn [d_real d_imag d_description app]. rewrite map_length. split; [exact L|]. split; [|split; [|now left]].
    + intros im. destruct isreal; cbn [option_map]; [discriminate|]. intros E. injection E as <-. cbn [app List.length ll]. rewrite !map_length. reflexivity.
    + intros a Ha. apply in_app_iff in Ha as [Ha|Ha].
      * apply in_map_iff in Ha as (g & <- & Hg). apply Len, Hg.
      * destruct isreal; cbn [option_map app] in Ha; [destruct Ha|]. apply in_map_iff in Ha as (g & <- & Hg). apply Len, Hg.
  - intros ids. unfold dataBlocks, seriesBlocks. rewrite R. destruct isreal; reflexivity.
Qed.
Lemma seriesDatas_ok grid n at_nodes times ls : (forall l, In l ls -> seriesOk grid n at_nodes times l) ->
  exists ds, mapM (seriesData grid n (@TNone io) (valuesOf at_nodes)) ls = Ok ds /\ (forall d, In d ds -> dataOk n times d) /\
  forall ids, concat (map (dataBlocks at_nodes ids times) ds) = concat (map (seriesBlocks at_nodes ids times) ls).
Proof.
  induction ls as [|l ls IH]; intros H. { exists []. split; [reflexivity|]. split; [intros d []|reflexivity]. }
  destruct (seriesData_ok (H l (or_introl eq_refl))) as (d & E & D & B). destruct (IH (fun m Hm => H m (or_intror Hm))) as (ds & E2 & D2 & B2).
  exists (d :: ds). cbn [mapM]. rewrite E. cbn [bind]. rewrite E2. cbn [bind]. split; [reflexivity|]. split.
  - intros x [<-|Hx]; [exact D|apply D2, Hx].
  - intros ids. cbn [map concat]. rewrite B, B2. reflexivity.
Qed.

Lemma setElements_grid (b : bgrid io) doms (s : dataset io) : gridOk b -> g_domain_indices (s_grid s) = doms -> g_elements (s_grid s) = b_elements b ->
  setElements s (numbers (List.length (b_vertices b))) (numbers (List.length (b_elements b))) = gridElements b doms.
Proof.
  intros (_ & _ & _ & R) E1 E2. unfold setElements, gridElements. rewrite E1, E2. apply map_ext_in. intros (id & (dom & vs)) Hx. f_equal. apply in_combine_r, in_combine_r in Hx.
  destruct (R vs Hx) as (_ & Rv). apply map_ext_in. intros v Hv. specialize (Rv v Hv). apply nth_error_nth with (d := 0) (n := Z.to_nat v).
  rewrite numbers_nth by lia. f_equal. lia.
Qed.
Lemma export_ok binary grids x (o : options io) : let b := grids (gridOf x) in let at_nodes := negb (o_element o) in
  let n := if at_nodes then List.length (b_vertices b) else List.length (b_elements b) in
  let times := match o_timesteps o with Some t => t | None => [zeroV] end in
  gridOk b -> nonEmpty x -> idsOk b o -> o_transform o = @TNone io ->
  (forall l, In l (seriesOf x) -> seriesOk (gridOf x) n at_nodes times l) ->
  exportGmsh magnitude zeroV binary grids x o =
    Ok (gridFile binary b (repeat 0 (List.length (b_elements b))) (concat (map (seriesBlocks at_nodes (numbers n) times) (seriesOf x)))).
Proof.
  intros b at_nodes n times G NE I T S.
  assert (GG : exists v e, forall vs eids, o_vids o = vs -> o_eids o = eids -> genericGrid (b_vertices b) (b_elements b) vs eids None =
     Ok (GGrid (b_vertices b) (b_elements b) v e (repeat 0 (List.length (b_elements b))))).
  { destruct (o_vids o) as [l|] eqn:Ev.
    - exists (map u32 l), (match o_eids o with None => range0 (List.length (b_elements b)) | Some l => map u32 l end). intros vs eids <- <-.
      unfold genericGrid. rewrite (I l Ev), Nat.eqb_refl. reflexivity.
    - exists (range0 (List.length (b_vertices b))), (match o_eids o with None => range0 (List.length (b_elements b)) | Some l => map u32 l end). intros vs eids <- <-. reflexivity. }
  destruct GG as (v & e & GG). specialize (GG _ _ eq_refl eq_refl). set (g := GGrid (b_vertices b) (b_elements b) v e (repeat 0 (List.length (b_elements b)))) in *.
  assert (DS : exists ds, exportedDataSet magnitude zeroV grids x o = Ok ds /\ s_grid ds = g /\
     setOk ds (numbers (List.length (b_vertices b))) (numbers (List.length (b_elements b))) /\
     setBlocks ds (numbers (List.length (b_vertices b))) (numbers (List.length (b_elements b))) = concat (map (seriesBlocks at_nodes (numbers n) times) (seriesOf x))).
  { assert (SO : forall vd ed ts, (forall d, In d vd -> dataOk (List.length (b_vertices b)) ts d) -> (forall d, In d ed -> dataOk (List.length (b_elements b)) ts d) ->
        setOk (Dataset g vd ed ts) (numbers (List.length (b_vertices b))) (numbers (List.length (b_elements b)))).
    { intros vd ed ts Hv He. constructor; cbn [s_grid s_vertex_data s_element_data s_timesteps g g_vertices g_elements g_domain_indices]; rewrite ?numbers_length, ?repeat_length; try reflexivity; try assumption.
      apply G. }
    assert (Ob : forall ls, seriesOf x = ls -> exists ds, objectToDataSet magnitude zeroV grids (gridOf x) (Some ls) o = Ok ds /\ s_grid ds = g /\
       setOk ds (numbers (List.length (b_vertices b))) (numbers (List.length (b_elements b))) /\
       setBlocks ds (numbers (List.length (b_vertices b))) (numbers (List.length (b_elements b))) = concat (map (seriesBlocks at_nodes (numbers n) times) ls)).
    { intros ls Els. rewrite Els in S. destruct (seriesDatas_ok S) as (ds & E & D & B). unfold objectToDataSet. fold b. rewrite GG. cbn [bind]. fold g. fold times. rewrite T.
      unfold n in *. unfold at_nodes in *. destruct (o_element o); cbn [negb] in *; cbn [valuesOf] in E.
      - change (@valuesOf io false) with (@f_onelements io) in E. rewrite E. cbn [bind]. eexists. split; [reflexivity|]. split; [reflexivity|]. split; [apply SO; [intros d []|exact D]|].
        unfold setBlocks. cbn [s_vertex_data s_element_data s_timesteps map concat app]. apply B.
      - change (@valuesOf io true) with (@f_onvertices io) in E. rewrite E. cbn [bind]. eexists. split; [reflexivity|]. split; [reflexivity|]. split; [apply SO; [exact D|intros d []]|].
        unfold setBlocks. cbn [s_vertex_data s_element_data s_timesteps map concat app]. rewrite app_nil_r. apply B. }
    destruct x as [k|f|l]; cbn [seriesOf gridOf exportedDataSet] in *.
    - unfold objectToDataSet. cbn [o_vids o_eids o_element o_timesteps]. fold b. rewrite GG. cbn [bind]. eexists. split; [reflexivity|]. split; [reflexivity|]. split; [apply SO; intros d []|reflexivity].
    - destruct (Ob _ eq_refl) as (ds & E & R). exists ds. split; [exact E|exact R].
    - destruct l as [|[|f s] l]; cbn [nonEmpty] in NE; [congruence| |].
      + exfalso. destruct (S [] (or_introl eq_refl)) as (X & _). exact (X eq_refl).
      + destruct (Ob _ eq_refl) as (ds & E & R). exists ds. split; [|exact R]. cbn [hd_error get bind]. exact E. }
  destruct DS as (ds & E & Eg & SO & B). unfold exportGmsh. rewrite E. cbn [bind exportDataSets writeFiles]. rewrite !range1_numbers, Eg. cbn [g_vertices g_elements g].
  assert (G1 := proj1 G). assert (G2 := proj1 (proj2 G)).
  unfold gridFile. destruct binary.
  - rewrite writeFile_binary; try assumption; try (apply numbers_int32; assumption).
    + cbn [bind]. f_equal. unfold setNodes. rewrite B. rewrite (@setElements_grid b (repeat 0 (List.length (b_elements b)))); [|exact G|rewrite Eg; reflexivity|rewrite Eg; reflexivity]. rewrite Eg. reflexivity.
    + rewrite Eg. apply Forall_forall. intros z Hz. cbn [g g_domain_indices] in Hz. apply repeat_spec in Hz. unfold int32. lia.
    + rewrite numbers_length. unfold int32. lia.
  - rewrite writeFile_ascii by exact SO. cbn [bind]. f_equal. unfold setNodes. rewrite B. rewrite (@setElements_grid b (repeat 0 (List.length (b_elements b)))); [|exact G|rewrite Eg; reflexivity|rewrite Eg; reflexivity]. rewrite Eg. reflexivity.
Qed.
End Io.
