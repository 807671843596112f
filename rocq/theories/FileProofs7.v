(** Several data sets, transformations, references to missing nodes. *)
From Coq Require Import List ZArith Bool Lia Ascii String Sorted Permutation.
From Verif Require Import Base FileModel FileSpec FileProofs1 FileProofs2 FileProofs3 FileProofs4 FileProofs5 FileProofs6.
Import ListNotations.
Set Implicit Arguments.
Unset Strict Implicit.
Local Open Scope Z_scope.

Section Io.
Variables (io : floatIO).
Lemma arrayBlocks_names at_nodes ids (times : list (V io)) name l : Forall (fun c => 32 <= code c < 127) name -> Forall (@nameOk io) (arrayBlocks at_nodes ids times name l).
Proof.
  intros H. apply Forall_forall. intros b Hb. unfold arrayBlocks in Hb. apply in_map_iff in Hb as ((k & (t & a)) & <- & _). exact H.
Qed.
Lemma seriesBlocks_names at_nodes ids (times : list (V io)) l : Forall (@nameOk io) (seriesBlocks at_nodes ids times l).
Proof.
  unfold seriesBlocks. destruct (forallb _ _); [apply arrayBlocks_names; constructor|]. apply Forall_app. split; apply arrayBlocks_names; repeat constructor; vm_compute; discriminate || reflexivity.
Qed.
Lemma allBlocks_names at_nodes ids (times : list (V io)) ls : Forall (@nameOk io) (concat (map (seriesBlocks at_nodes ids times) ls)).
Proof. induction ls as [|l ls IH]; [constructor|]. cbn [map concat]. apply Forall_app. split; [apply seriesBlocks_names|exact IH]. Qed.

(** several data sets with the same ids *)
Lemma writeFile_ok binary (s : dataset io) vids eids : setOk s vids eids -> fits binary s vids eids -> writeFile binary s vids eids = Ok (fileOf binary s vids eids).
Proof.
  intros S Fi. unfold fileOf. destruct binary; [|apply writeFile_ascii, S]. destruct (Fi eq_refl) as (F1 & F2 & F3 & F4). apply writeFile_binary; assumption.
Qed.
Lemma writeFiles_ok binary k many (l : list (dataset io)) vids eids : (forall s, In s l -> setOk s vids eids /\ fits binary s vids eids) ->
  writeFiles binary k many l (Some vids) (Some eids) =
  Ok (map (fun p => (if many then zstr (Z.of_nat (fst p)) else [], fileOf binary (snd p) vids eids)) (enum k l)).
Proof.
  revert k. induction l as [|s l IH]; intros k H; [reflexivity|]. cbn [writeFiles enum map fst snd]. destruct (H s (or_introl eq_refl)) as (S1 & S2). rewrite (writeFile_ok S1 S2). cbn [bind].
  rewrite IH; [reflexivity|]. intros t Ht. apply H. now right.
Qed.
Lemma enum_combine {A} (l : list A) k : enum k l = combine (seq k (List.length l)) l.
Proof. revert k. induction l as [|a l IH]; intros k; [reflexivity|]. cbn [enum List.length seq combine]. rewrite IH. reflexivity. Qed.

(** transformations *)
Variables (magnitude : list (V io * V io) -> V io) (zeroV : V io).
Notation applied := (applied magnitude zeroV).
Lemma transform_applied t (values : gfun io -> list (list (V io * V io))) f : (values = @f_onvertices io \/ values = @f_onelements io) ->
  componentsAfter t (f_comp f) (values f) = f_comp f ->
  transform magnitude zeroV t (CArray (f_comp f) (values f)) = CArray (f_comp (applied t f)) (values (applied t f)).
Proof.
  intros C E. destruct t; cbn [componentsAfter transform] in *.
  - destruct C as [-> | ->]; reflexivity.
  - destruct C as [-> | ->]; reflexivity.
  - destruct C as [-> | ->]; reflexivity.
  - destruct C as [-> | ->]; unfold FileSpec.applied; cbn [f_comp f_onvertices f_onelements pointwise]; rewrite <- E; reflexivity.
  - destruct C as [-> | ->]; unfold FileSpec.applied; cbn [f_comp f_onvertices f_onelements pointwise]; rewrite <- E at 2; destruct (f0 _); reflexivity.
Qed.
Lemma addAll_transform grid comp n isreal t (values : gfun io -> list (list (V io * V io))) l : (values = @f_onvertices io \/ values = @f_onelements io) ->
  (forall f, In f l -> componentsAfter t (f_comp f) (values f) = f_comp f) -> forall d,
  addAll magnitude zeroV grid comp n isreal t values d l = addAll magnitude zeroV grid comp n isreal (@TNone io) values d (map (applied t) l).
Proof.
  intros C. induction l as [|f l IH]; intros H d; [reflexivity|]. cbn [addAll map]. rewrite (transform_applied C (H f (or_introl eq_refl))). cbn [transform].
  change (f_grid (applied t f)) with (f_grid f). destruct (negb _); [reflexivity|]. destruct (addData _ _ _ _ _); [|reflexivity|reflexivity]. cbn [bind]. apply IH. intros g Hg. apply H. now right.
Qed.
Lemma seriesData_transform grid n t (values : gfun io -> list (list (V io * V io))) l : (values = @f_onvertices io \/ values = @f_onelements io) ->
  (forall f, In f l -> componentsAfter t (f_comp f) (values f) = f_comp f) ->
  seriesData magnitude zeroV grid n t values l = seriesData magnitude zeroV grid n (@TNone io) values (map (applied t) l).
Proof.
  intros C H. unfold seriesData. destruct l as [|f l]; [reflexivity|]. cbn [hd_error get bind map]. rewrite (addAll_transform _ _ _ _ C H). reflexivity.
Qed.
Lemma mapM_map {A B C} (f : A -> B) (g : B -> res C) l : mapM g (map f l) = mapM (fun a => g (f a)) l.
Proof. induction l as [|a l IH]; [reflexivity|]. cbn [map mapM]. rewrite IH. reflexivity. Qed.
Lemma mapM_ext_in {A B} (f g : A -> res B) l : (forall a, In a l -> f a = g a) -> mapM f l = mapM g l.
Proof. induction l as [|a l IH]; intros H; [reflexivity|]. cbn [mapM]. rewrite (H a (or_introl eq_refl)), IH; [reflexivity|]. intros b Hb. apply H. now right. Qed.
Definition untransformed (o : options io) : options io := Options (o_vids o) (o_eids o) (o_element o) (@TNone io) (o_timesteps o).
Lemma export_transform binary grids x (o : options io) :
  (forall l f, In l (seriesOf x) -> In f l -> componentsAfter (o_transform o) (f_comp f) (valuesOf (negb (o_element o)) f) = f_comp f) ->
  exportGmsh magnitude zeroV binary grids x o = exportGmsh magnitude zeroV binary grids (onFunctions (applied (o_transform o)) x) (untransformed o).
Proof.
  intros H. unfold exportGmsh. f_equal.
  assert (Ob : forall grid ls, seriesOf x = ls -> objectToDataSet magnitude zeroV grids grid (Some ls) o = objectToDataSet magnitude zeroV grids grid (Some (map (map (applied (o_transform o))) ls)) (untransformed o)).
  { intros grid ls Els. unfold objectToDataSet. cbn [o_vids o_eids o_element o_transform o_timesteps untransformed]. destruct (genericGrid _ _ _ _ _); [|reflexivity|reflexivity]. cbn [bind]. rewrite Els in H.
    f_equal. destruct (o_element o); rewrite mapM_map; apply mapM_ext_in; intros l Hl; apply seriesData_transform; try tauto; intros f Hf; apply (H l f Hl Hf). }
  destruct x as [k|f|l]; cbn [onFunctions exportedDataSet].
  - reflexivity.
  - rewrite (Ob _ _ eq_refl). reflexivity.
  - destruct l as [|[|f s] l]; try reflexivity. cbn [hd_error get bind map]. rewrite (Ob _ _ eq_refl). reflexivity.
Qed.

(** references to missing nodes *)
Lemma setNth_length {A} (l : list A) i a : List.length (setNth l i a) = List.length l.
Proof. revert i. induction l as [|b l IH]; intros i; [reflexivity|]. destruct i; cbn [setNth List.length]; [reflexivity|]. rewrite IH. reflexivity. Qed.
Lemma pyget_bounds {A} (l : list A) i a : pyget l i = Some a -> - Z.of_nat (List.length l) <= i < Z.of_nat (List.length l).
Proof.
  unfold pyget. destruct (Z.leb_spec 0 i); destruct (Z.ltb_spec i (Z.of_nat (List.length l))); cbn [andb]; try (intros; lia);
  destruct (Z.leb_spec (- Z.of_nat (List.length l)) i); destruct (Z.ltb_spec i 0); cbn [andb]; try discriminate; intros; lia.
Qed.
Lemma pyset_length {A} (l l' : list A) i a : pyset l i a = Some l' -> List.length l' = List.length l.
Proof.
  unfold pyset. destruct (_ && _); [intros E; inversion E; apply setNth_length|]. destruct (_ && _); [intros E; inversion E; apply setNth_length|discriminate].
Qed.
Lemma useVertex_range used count v x used' count' : useVertex (used, count) v = Ok (x, (used', count')) ->
  List.length used' = List.length used /\ - Z.of_nat (List.length used) < v <= Z.of_nat (List.length used).
Proof.
  unfold useVertex. intros H. apply bind_inv in H as (y & E & H). destruct (pyget used (v - 1)) as [z|] eqn:P; [|discriminate E]. apply pyget_bounds in P.
  destruct (y =? -1).
  - apply bind_inv in H as (u & E2 & H). destruct (pyset used (v - 1) count) as [w|] eqn:Q; [|discriminate E2]. apply pyset_length in Q. inversion E2; subst. inversion H; subst. split; [exact Q|]. lia.
  - inversion H; subst. split; [reflexivity|]. lia.
Qed.
Lemma useVertices_range vs : forall used count xs used' count', useVertices (used, count) vs = Ok (xs, (used', count')) ->
  List.length used' = List.length used /\ forall v, In v vs -> - Z.of_nat (List.length used) < v <= Z.of_nat (List.length used).
Proof.
  induction vs as [|v vs IH]; intros used count xs used' count' H; cbn [useVertices] in H. { inversion H; subst. split; [reflexivity|intros v []]. }
  apply bind_inv in H as ((x & (u1 & c1)) & E1 & H). apply bind_inv in H as ((l & (u2 & c2)) & E2 & H). inversion H; subst.
  apply useVertex_range in E1 as (L1 & R1). apply IH in E2 as (L2 & R2). split; [congruence|]. intros w [<-|Hw]; [exact R1|]. rewrite <- L1. apply R2, Hw.
Qed.
Lemma useElements_range ts : forall used count xs used' count', useElements (used, count) ts = Ok (xs, (used', count')) ->
  List.length used' = List.length used /\ forall t v, In t ts -> In v (triNodes t) -> - Z.of_nat (List.length used) < v <= Z.of_nat (List.length used).
Proof.
  induction ts as [|((i & vs) & d) ts IH]; intros used count xs used' count' H; cbn [useElements] in H. { inversion H; subst. split; [reflexivity|intros v w []]. }
  apply bind_inv in H as ((x & (u1 & c1)) & E1 & H). apply bind_inv in H as ((l & (u2 & c2)) & E2 & H). inversion H; subst.
  apply useVertices_range in E1 as (L1 & R1). apply IH in E2 as (L2 & R2). split; [congruence|]. intros w v [<-|Hw] Hv; [apply R1, Hv|]. rewrite <- L1. apply (R2 w v Hw Hv).
Qed.
Lemma create_dangling argsort (nodes : list (Z * point io)) (tris : list element) b sz t v : In t tris -> In v (e_nodes t) ->
  v <= - Z.of_nat (List.length nodes) \/ Z.of_nat (List.length nodes) < v ->
  forall g, createGrid argsort (Parsed (Some nodes) (Some (map triangleData tris)) b sz) <> Ok g.
Proof.
  intros It Iv D g H. unfold createGrid in H. cbn [p_nodes p_elems get bind] in H. apply bind_inv in H as (d & _ & H). destruct (_ || _); [discriminate H|].
  apply bind_inv in H as ((es & (u & c)) & E & _). apply useElements_range in E as (_ & R). rewrite repeat_length in R.
  specialize (R (triangleData t) v (in_map triangleData _ _ It) Iv). lia.
Qed.
End Io.
