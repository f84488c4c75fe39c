(** Property theorems C37, C42, C59: gismo files. *)
From Coq Require Import List Arith ZArith Bool QArith Qcanon Lia Sorting.Sorted.
From Verif Require Import Base BaseQc S_Spline S_Value M_Core S_Core P_Core W_Core M_Files S_Files P_Files W_Files M_Mfem W_Mfem T_Mfem S_Interfaces M_Gismo S_Gismo P_Gismo W_Gismo.
Import ListNotations.
Local Open Scope list_scope.
Local Open Scope nat_scope.

(** * C37 *)
(** The loaded table is the exported one, for any orientation columns of the right
    number and any boundary ids. *)
Theorem C37_labeled_partial : forall n para_dim t orient, 0 < n -> 0 < para_dim ->
  patch_table n (2 * para_dim) t -> (forall l, length (orient l) = 2 * para_dim) ->
  exists f, export_table para_dim orient true t = Some f /\ load_table f = Some t.
Proof. exact C37_labeled_partial_holds. Qed.
Print Assumptions C37_labeled_partial.

(** Three squares in a row; the ids -1 and -3 are used. *)

Example C37_labeled_example : patch_table 3 4 strip /\
  (exists f, export_table 2 (fun _ => [1; 0; 1; 1]%Z) true strip = Some f /\
    g_interfaces f = Some [100; 2; 101; 1; 1; 0; 1; 1; 101; 2; 102; 1; 1; 0; 1; 1]%Z /\
    nth 1 (g_boundaries f) (Some []) = None /\ load_table f = Some strip).
Proof. exact C37_labeled_example_holds. Qed.

(** Without labels all boundary faces get the id -1. *)
Theorem C37_unlabeled_partial : forall n para_dim t orient, 0 < n -> 0 < para_dim ->
  patch_table n (2 * para_dim) t -> (forall l, length (orient l) = 2 * para_dim) ->
  exists f, export_table para_dim orient false t = Some f /\
    load_table f = Some (map (fun v => if (v <? 0)%Z then (-1)%Z else v) t).
Proof. exact C37_unlabeled_partial_holds. Qed.
Print Assumptions C37_unlabeled_partial.

(** The full statement fails for labeled_boundaries=False. *)
Theorem C37_unlabeled_refuted :
  ~ (forall n para_dim t orient labeled f, 0 < n -> 0 < para_dim -> patch_table n (2 * para_dim) t ->
       (forall l, length (orient l) = 2 * para_dim) -> export_table para_dim orient labeled t = Some f ->
       load_table f = Some t).
Proof. exact C37_unlabeled_refuted_holds. Qed.
Print Assumptions C37_unlabeled_refuted.

(** * C42 *)
(** Row r is (patch, field, number of earlier rows of the patch); there is a row for each
    selected field and each patch where it is not zero, field by field. *)
Theorem C42_matrix : forall mask fields m, support_matrix mask fields = Some m ->
  exists ids, selected (length fields) mask ids /\ support_rows ids fields (map fst m) /\
    forall r i j c, nth_error m r = Some (i, j, c) -> c = Z.of_nat (earlier (map fst m) r i).
Proof. exact C42_matrix_holds. Qed.
Print Assumptions C42_matrix.

(** The matrix is refused exactly for a bad mask, without any row, or when a patch is
    missing in between. *)
Theorem C42_refused : forall mask fields, support_matrix mask fields = None <->
  bad_mask (length fields) mask \/
  exists ids, selected (length fields) mask ids /\ ((forall k i, In k ids -> ~ active fields k i) \/ ~ no_gap fields ids).
Proof. exact C42_refused_holds. Qed.
Print Assumptions C42_refused.

(** The coefficients of a patch hold its fields in the order of these numbers. *)
Theorem C42_columns : forall mask fields m ids, support_matrix mask fields = Some m ->
  field_ids (length fields) mask = Some ids ->
  forall r i j c, nth_error m r = Some (i, j, c) -> nth_error (patch_fields ids m i) (Z.to_nat c) = Some (nth j ids 0).
Proof. exact C42_columns_holds. Qed.
Print Assumptions C42_columns.

(** Three fields on three patches, the second is not selected. *)
Example C42_example :
  support_matrix (Some [2; 0; 2]%Z) [[true; true; false]; [true; true; true]; [false; true; true]] =
    Some [(0, 0, 0%Z); (1, 0, 0%Z); (1, 1, 1%Z); (2, 1, 0%Z)] /\
  support_matrix None [[true; false; true]] = None.
Proof. exact C42_example_holds. Qed.

(** * C59 *)
(** All patches come back: same points and weights, same knots or those of the Bernstein
    basis; the class follows from the weights. *)
Theorem C59_patches : forall limit para_dim orient t l, l <> [] -> 0 < para_dim ->
  patch_table (length l) (2 * para_dim) t -> (forall x, length (orient x) = 2 * para_dim) ->
  Forall (fun o => own_class o /\ storable limit (o_core o) /\ length (sp_axes (o_core o)) = para_dim) l ->
  exists f l', export_gismo orient true para_dim t l = Some f /\ load_gismo limit f = Some (t, l') /\
    Forall2 (fun o o' => knots_of (o_core o) (o_core o') /\
      o_cls o' = Some (match sp_weights (o_core o) with None => CBSpline | Some _ => CNurbs end)) l l'.
Proof. exact C59_patches_holds. Qed.
Print Assumptions C59_patches.

(** Such a patch has the same values; one with knots is the same. *)
Theorem C59_values : forall s t, knots_of s t ->
  (Forall (fun a => exists p kv, a = KnotAxis p kv) (sp_axes s) -> t = s) /\
  forall us d, sp_value t us d = sp_value s us d.
Proof. exact C59_values_holds. Qed.
Print Assumptions C59_values.

(** A file with one rational square; its four sides have the ids -1 to -4. *)
Example C59_example : own_class (Object (Some CNurbs) (square ones_but_last)) /\
  storable 3 (square ones_but_last) /\ length (sp_axes (square ones_but_last)) = 2 /\
  patch_table 1 4 [-1; -2; -3; -4]%Z.
Proof. exact C59_example_holds. Qed.

(** An object of the generic class is not written, though its core is fine. *)
Theorem C59_generic_refuted : exists o, storable 3 (o_core o) /\ o_cls o = None /\ export_geometry o = None.
Proof. exact C59_generic_refuted_holds. Qed.
Print Assumptions C59_generic_refuted.
