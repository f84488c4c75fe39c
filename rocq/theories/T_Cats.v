(** Theorems about files in the format of CATS (C91). *)
From Coq Require Import String List Arith ZArith Bool QArith Qcanon Lia.
From Verif Require Import Base BaseQc S_Value M_Core S_Core P_Core W_Core M_Files S_Files P_Files W_Files M_Mfem M_Gismo M_Cats S_Cats P_Cats W_Cats.
Import ListNotations.
Local Open Scope string_scope.
Local Open Scope list_scope.
Local Open Scope nat_scope.

(** Reading what was written. *)
Theorem C91_roundtrip_partial : forall limit rational l, Forall own_class l -> Forall (fun o => storable limit (o_core o)) l ->
  exists f l', export_cats rational l = Some f /\ load_cats limit (reparse f) = Some l' /\ Forall own_class l' /\
  Forall2 (fun o o' => kept rational (o_core o) (o_core o')) l l'.
Proof. exact C91_roundtrip_partial_holds. Qed.
Print Assumptions C91_roundtrip_partial.

(** What is kept gives the same map. *)
Theorem C91_same_map : forall rational s t, kept rational s t -> sp_wf s -> same_map s t.
Proof. exact C91_same_map_holds. Qed.
Print Assumptions C91_same_map.

(** Other files: the stated number of patches is what is returned. *)
Theorem C91_counts : forall limit f l n, load_cats limit f = Some l -> prefix "SplineList" (tag f) = true -> states f "NumberOfSplines" n ->
  n = Z.of_nat (length l) /\ length l = length (children f).
Proof. exact C91_counts_holds. Qed.
Print Assumptions C91_counts.

(** Closed axes are refused. *)
Theorem C91_closed : forall limit f x, prefix "SplineList" (tag f) = true -> In x (children f) -> closed x -> load_cats limit f = None.
Proof. exact C91_closed_holds. Qed.
Print Assumptions C91_closed.

(** Control points with further variables: the coordinates are kept. *)
Theorem C91_variables : forall limit dim vars rows degs kvs ws names f, patch_file dim vars rows degs kvs ws names f -> names <> [] -> 0 < dim -> dim <= vars ->
  Forall (fun r => length r = vars) rows -> consistent degs (Some kvs) (map (firstn dim) rows) ws -> supported limit degs (Some kvs) (map (firstn dim) rows) ->
  exists o, load_cats limit f = Some [o] /\ own_class o /\ has_properties (o_core o) degs (Some kvs) (map (firstn dim) rows) ws.
Proof. exact C91_variables_holds. Qed.
Print Assumptions C91_variables.

(** A curve and a Bezier surface. *)
Example C91_example : Forall own_class two /\ Forall (fun o => storable 3 (o_core o)) two /\
  map (fun f => (tag f, length (children f), length (children (reparse f)))) (match export_cats false two with Some f => [f] | None => [] end) = [("SplineList", 3, 2)] /\
  map (map (fun o => (o_cls o, core_degrees (o_core o)))) (match load_cats 3 (match export_cats true two with Some f => reparse f | None => Comment end) with Some l => [l] | None => [] end) =
    [map (fun o => (Some CNurbs, core_degrees (o_core o))) two].
Proof. exact C91_example_holds. Qed.

(** A line whose points carry a temperature, and its closed relative. *)

Example C91_variables_example : patch_file 2 3 [[0; 0; qc 20 1]; [1; 1; qc 30 1]]%Qc [1%Z] [[0; 0; 1; 1]]%Qc None ["x"; "y"; "T"] (heated []) /\
  consistent [1%Z] (Some [[0; 0; 1; 1]]%Qc) [[0; 0]; [1; 1]]%Qc None /\ supported 3 [1%Z] (Some [[0; 0; 1; 1]]%Qc) [[0; 0]; [1; 1]]%Qc.
Proof. exact C91_variables_example_holds. Qed.

Example C91_closed_example : exists x, prefix "SplineList" (tag (heated [("closed", [TInt 1])])) = true /\ In x (children (heated [("closed", [TInt 1])])) /\ closed x /\
  states (heated []) "NumberOfSplines" 1 /\ someb (load_cats 3 (heated [])) = true.
Proof. exact C91_closed_example_holds. Qed.

(** Objects of the generic class Spline cannot be written. *)
Theorem C91_generic_refuted : exists o, o_cls o = None /\ storable 3 (o_core o) /\ export_cats true [o] = None /\ export_cats false [o] = None.
Proof. exact C91_generic_refuted_holds. Qed.
Print Assumptions C91_generic_refuted.

(** Knots moved below -1 in place: the file cannot be read. *)
Theorem C91_low_knots_refuted : exists st s f,
  run 3 CBSpline (start CBSpline in_bsp) [EditKvs lower] = Some st /\ s_core st = Some s /\
  (exists degs kvs cps ws, consistent degs kvs cps ws /\ has_properties s degs kvs cps ws) /\
  export_cats true [Object (Some CBSpline) s] = Some f /\ load_cats 3 (reparse f) = None.
Proof. exact C91_low_knots_refuted_holds. Qed.
Print Assumptions C91_low_knots_refuted.
