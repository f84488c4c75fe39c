(** Property theorems C41: irit files. *)
From Coq Require Import List Arith ZArith Bool QArith Qcanon Lia.
From Verif Require Import Base BaseQc S_Value M_Core S_Core P_Core W_Core M_Files S_Files P_Files W_Files M_Irit S_Irit P_Irit W_Irit.
Import ListNotations.
Local Open Scope list_scope.
Local Open Scope nat_scope.

(** Loading an exported list of splines gives the same splines: degrees, knot
    vectors, weights and unweighted control points. *)
Theorem C41_roundtrip_partial : forall limit l, Forall own_class l ->
  Forall (fun o => storable limit (o_core o) /\ weights_ok (o_core o) /\ one_digit (o_core o)) l ->
  load_irit limit (export_irit l) = Some l.
Proof. exact C41_roundtrip_partial_holds. Qed.
Print Assumptions C41_roundtrip_partial.

(** A rational curve next to a surface. *)
Example C41_example : Forall own_class both /\
  Forall (fun o => storable 3 (o_core o) /\ weights_ok (o_core o) /\ one_digit (o_core o)) both /\
  length (export_irit both) = 59.
Proof. exact C41_example_holds. Qed.

(** * Findings *)
(** The reader takes one digit of the dimension: a spline in ten dimensions cannot be
    read back. *)
Theorem C41_dimension_refuted : exists o, own_class o /\ storable 3 (o_core o) /\ weights_ok (o_core o) /\
  load_irit 3 (export_irit [o]) = None.
Proof. exact C41_dimension_refuted_holds. Qed.
Print Assumptions C41_dimension_refuted.

(** Objects of the generic class Spline are written without a key word, and lost
    without an exception. *)
Theorem C41_generic_refuted : exists o, o_cls o = None /\ storable 3 (o_core o) /\ weights_ok (o_core o) /\
  one_digit (o_core o) /\ load_irit 3 (export_irit [o]) = Some [].
Proof. exact C41_generic_refuted_holds. Qed.
Print Assumptions C41_generic_refuted.

(** Knots moved below -1 in place. *)
Theorem C41_low_knots_refuted : exists st s,
  run 3 CBSpline (start CBSpline in_bsp) [EditKvs lower] = Some st /\ s_core st = Some s /\
  (exists degs kvs cps ws, consistent degs kvs cps ws /\ has_properties s degs kvs cps ws) /\
  load_irit 3 (export_irit [Object (Some CBSpline) s]) = None.
Proof. exact C41_low_knots_refuted_holds. Qed.
Print Assumptions C41_low_knots_refuted.
