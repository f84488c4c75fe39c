(** Witnesses and assembly of the theorems of T_Gismo. *)
From Coq Require Import List Arith ZArith Bool QArith Qcanon Lia Sorting.Sorted.
From Verif Require Import Base BaseQc S_Spline S_Value M_Core S_Core P_Core W_Core M_Files S_Files P_Files W_Files M_Mfem W_Mfem T_Mfem S_Interfaces M_Gismo S_Gismo P_Gismo.
Import ListNotations.
Local Open Scope list_scope.
Local Open Scope nat_scope.

Lemma C37_labeled_partial_holds : forall n para_dim t orient, 0 < n -> 0 < para_dim ->
  patch_table n (2 * para_dim) t -> (forall l, length (orient l) = 2 * para_dim) ->
  exists f, export_table para_dim orient true t = Some f /\ load_table f = Some t.
Proof.
  intros n para_dim t orient Hn Hp V L. destruct (table_roundtrip n para_dim t orient Hn Hp V L) as (f & A & B & _). eauto.
Qed.

Definition strip : list Z := [-1; 4; -1; -3; 1; 8; -1; -1; 5; -3; -1; -1]%Z.

Lemma C37_labeled_example_holds : patch_table 3 4 strip /\
  (exists f, export_table 2 (fun _ => [1; 0; 1; 1]%Z) true strip = Some f /\
    g_interfaces f = Some [100; 2; 101; 1; 1; 0; 1; 1; 101; 2; 102; 1; 1; 0; 1; 1]%Z /\
    nth 1 (g_boundaries f) (Some []) = None /\ load_table f = Some strip).
Proof.
  split.
  - split; [reflexivity|]. intros i Hi. cbn in Hi. unfold strip.
    do 12 (destruct i as [|i]; [cbn [nth]; intros H; first [lia | exists 4; cbn; lia | exists 1; cbn; lia | exists 8; cbn; lia | exists 5; cbn; lia]|]). lia.
  - eexists. split; [reflexivity|]. repeat split; vm_compute; reflexivity.
Qed.

Lemma C37_unlabeled_partial_holds : forall n para_dim t orient, 0 < n -> 0 < para_dim ->
  patch_table n (2 * para_dim) t -> (forall l, length (orient l) = 2 * para_dim) ->
  exists f, export_table para_dim orient false t = Some f /\
    load_table f = Some (map (fun v => if (v <? 0)%Z then (-1)%Z else v) t).
Proof. exact old_roundtrip. Qed.

Lemma C37_unlabeled_refuted_holds :
  ~ (forall n para_dim t orient labeled f, 0 < n -> 0 < para_dim -> patch_table n (2 * para_dim) t ->
       (forall l, length (orient l) = 2 * para_dim) -> export_table para_dim orient labeled t = Some f ->
       load_table f = Some t).
Proof.
  intros H. destruct (old_roundtrip 3 2 strip (fun _ => [1; 0; 1; 1]%Z) ltac:(lia) ltac:(lia)
    (proj1 C37_labeled_example_holds) ltac:(easy)) as (f & E & L).
  specialize (H 3 2 strip (fun _ => [1; 0; 1; 1]%Z) false f ltac:(lia) ltac:(lia) (proj1 C37_labeled_example_holds) ltac:(easy) E).
  rewrite L in H. discriminate H.
Qed.

Lemma C42_matrix_holds : forall mask fields m, support_matrix mask fields = Some m ->
  exists ids, selected (length fields) mask ids /\ support_rows ids fields (map fst m) /\
    forall r i j c, nth_error m r = Some (i, j, c) -> c = Z.of_nat (earlier (map fst m) r i).
Proof.
  intros mask fields m E. destruct (matrix_some mask fields m E) as (ids & Ei & -> & _).
  exists ids. pose proof (field_ids_spec (length fields) mask) as F. rewrite Ei in F.
  destruct (matrix_counts (supports ids fields)) as (A & B & C). rewrite A. split; [tauto|]. split; [apply supports_rows|exact C].
Qed.

Lemma C42_refused_holds : forall mask fields, support_matrix mask fields = None <->
  bad_mask (length fields) mask \/
  exists ids, selected (length fields) mask ids /\ ((forall k i, In k ids -> ~ active fields k i) \/ ~ no_gap fields ids).
Proof. exact matrix_none. Qed.

Lemma C42_columns_holds : forall mask fields m ids, support_matrix mask fields = Some m ->
  field_ids (length fields) mask = Some ids ->
  forall r i j c, nth_error m r = Some (i, j, c) -> nth_error (patch_fields ids m i) (Z.to_nat c) = Some (nth j ids 0).
Proof.
  intros mask fields m ids E Ei r i j c H. apply (patch_columns ids m r i j c H).
  destruct (matrix_some mask fields m E) as (ids' & Ei' & -> & _).
  destruct (matrix_counts (supports ids' fields)) as (A & B & C). rewrite A. exact (C r i j c H).
Qed.

Lemma C42_example_holds :
  support_matrix (Some [2; 0; 2]%Z) [[true; true; false]; [true; true; true]; [false; true; true]] =
    Some [(0, 0, 0%Z); (1, 0, 0%Z); (1, 1, 1%Z); (2, 1, 0%Z)] /\
  support_matrix None [[true; false; true]] = None.
Proof. split; reflexivity. Qed.

Lemma C59_patches_holds : forall limit para_dim orient t l, l <> [] -> 0 < para_dim ->
  patch_table (length l) (2 * para_dim) t -> (forall x, length (orient x) = 2 * para_dim) ->
  Forall (fun o => own_class o /\ storable limit (o_core o) /\ length (sp_axes (o_core o)) = para_dim) l ->
  exists f l', export_gismo orient true para_dim t l = Some f /\ load_gismo limit f = Some (t, l') /\
    Forall2 (fun o o' => knots_of (o_core o) (o_core o') /\
      o_cls o' = Some (match sp_weights (o_core o) with None => CBSpline | Some _ => CNurbs end)) l l'.
Proof.
  intros limit para_dim orient t l Nl Hp V Lo F. destruct (file_roundtrip limit para_dim orient t l Nl Hp V Lo F) as (f & A & B).
  exists f. eexists. split; [exact A|]. split; [exact B|]. clear. induction l as [|o l IH]; cbn; constructor; [|exact IH].
  split; [apply with_knots_of|reflexivity].
Qed.

Lemma C59_values_holds : forall s t, knots_of s t ->
  (Forall (fun a => exists p kv, a = KnotAxis p kv) (sp_axes s) -> t = s) /\
  forall us d, sp_value t us d = sp_value s us d.
Proof.
  intros s t K. split; [|intros us d; now apply knots_values].
  destruct s as [ax p w], t as [ax' p' w']. destruct K as (E1 & E2 & F). cbn in *. subst. intros G. f_equal.
  induction F as [|a b l l' H F IH]; [easy|]. inversion G as [|? ? (q & kv & ->) G']; subst. cbn in H. subst. f_equal. auto.
Qed.

Lemma C59_example_holds : own_class (Object (Some CNurbs) (square ones_but_last)) /\
  storable 3 (square ones_but_last) /\ length (sp_axes (square ones_but_last)) = 2 /\
  patch_table 1 4 [-1; -2; -3; -4]%Z.
Proof.
  split; [|split; [|split; [reflexivity|split; [reflexivity|]]]].
  - exists CNurbs. split; [reflexivity|]. apply (name_right (square ones_but_last) 3). apply C38_load_example.
  - apply C38_load_example.
  - intros i Hi. cbn in Hi. do 4 (destruct i as [|i]; [cbn; lia|]). lia.
Qed.

Lemma C59_generic_refuted_holds : exists o, storable 3 (o_core o) /\ o_cls o = None /\ export_geometry o = None.
Proof.
  exists (Object None plane). destruct two_stored as [_ F]. inversion F as [|? ? _ F']. inversion F' as [|? ? St _]. subst.
  refine (conj St (conj eq_refl _)). reflexivity.
Qed.
