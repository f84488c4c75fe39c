(** Property theorems C40: splines in npz and json files. *)
From Coq Require Import String List Arith ZArith Bool QArith Qcanon Lia.
From Verif Require Import Base BaseQc S_Value M_Core S_Core P_Core W_Core M_Files S_Files P_Files W_Files.
Import ListNotations.
Local Open Scope list_scope.
Local Open Scope nat_scope.

(** * npz *)
(** Loading what was exported gives the same cores, in order, as objects of the
    class their properties call for. *)
Theorem C40_npz : forall limit l, Forall (fun o => storable limit (o_core o)) l ->
  exists l', load_npz limit (export_npz l) = Some l' /\ map o_core l' = map o_core l /\ Forall own_class l'.
Proof. exact C40_npz_holds. Qed.
Print Assumptions C40_npz.

(** The identity, where the objects are of these classes. *)
Theorem C40_npz_identity_partial : forall limit l, Forall own_class l ->
  Forall (fun o => storable limit (o_core o)) l -> load_npz limit (export_npz l) = Some l.
Proof. exact C40_npz_identity_partial_holds. Qed.
Print Assumptions C40_npz_identity_partial.

(** * json *)
(** With and without base64. *)
Theorem C40_json_partial : forall limit b64 l, Forall own_class l ->
  Forall (fun o => storable limit (o_core o)) l ->
  exists f, export_json b64 l = Some f /\ load_json limit f = Some l.
Proof. exact C40_json_partial_holds. Qed.
Print Assumptions C40_json_partial.

(** Everything the constructor makes can be stored. *)
Theorem C40_storable : forall limit c i degs kvs cps ws s, complete c i degs kvs cps ws ->
  built limit c i s -> storable limit s /\ right_class c s.
Proof. exact C40_storable_holds. Qed.
Print Assumptions C40_storable.

(** Two splines, a curve and a surface; their files are not empty. *)
Example C40_example : Forall own_class two /\ Forall (fun o => storable 3 (o_core o)) two /\
  length (export_npz two) = 7 /\
  map (fun f => map (@length _) (j_splines f)) (match export_json true two with Some f => [f] | None => [] end) = [[9; 6]].
Proof. exact C40_example_holds. Qed.

(** * Findings *)
(** Objects of the generic class Spline: the npz file gives an object of another
    class; the json file is written with the type Spline, which no reader knows; with
    base64 the export of one without weights raises. *)
Theorem C40_generic_refuted : exists o, storable 3 (o_core o) /\ o_cls o = None /\
  load_npz 3 (export_npz [o]) <> Some [o] /\
  (exists f, export_json false [o] = Some f /\ load_json 3 f = None) /\
  export_json true [o] = None.
Proof. exact C40_generic_refuted_holds. Qed.
Print Assumptions C40_generic_refuted.

(** Knots moved below -1 in place: both files are written, neither can be read. *)
Theorem C40_low_knots_refuted : exists st s,
  run 3 CBSpline (start CBSpline in_bsp) [EditKvs lower] = Some st /\ s_core st = Some s /\
  (exists degs kvs cps ws, consistent degs kvs cps ws /\ has_properties s degs kvs cps ws) /\
  load_npz 3 (export_npz [Object (Some CBSpline) s]) = None /\
  (exists f, export_json false [Object (Some CBSpline) s] = Some f /\ load_json 3 f = None).
Proof. exact C40_low_knots_refuted_holds. Qed.
Print Assumptions C40_low_knots_refuted.
