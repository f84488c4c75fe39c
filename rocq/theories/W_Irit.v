(** Witnesses and assembly of the theorems of T_Irit. *)
From Coq Require Import List Arith ZArith Bool QArith Qcanon Lia.
From Verif Require Import Base BaseQc S_Value M_Core S_Core P_Core W_Core M_Files S_Files P_Files W_Files M_Irit S_Irit P_Irit.
Import ListNotations.
Local Open Scope list_scope.
Local Open Scope nat_scope.

Lemma C41_roundtrip_partial_holds : forall limit l, Forall own_class l ->
  Forall (fun o => storable limit (o_core o) /\ weights_ok (o_core o) /\ one_digit (o_core o)) l ->
  load_irit limit (export_irit l) = Some l.
Proof. exact irit_roundtrip. Qed.

Definition in_arc : inputs :=
  Inputs (Some [2%Z]) (Some [[0; 0; 0; 1; 1; 1]%Qc]) (Some [[1; 0]; [1; 1]; [0; 1]]%Qc) (Some [1; qc 3 4; 1]%Qc).

Definition quarter : spline := W_Core.get no_spline (s_core (start CNurbs in_arc)).

Lemma complete_arc : complete CNurbs in_arc [2%Z] (Some [[0; 0; 0; 1; 1; 1]%Qc]) [[1; 0]; [1; 1]; [0; 1]]%Qc (Some [1; qc 3 4; 1]%Qc).
Proof. cbn. repeat split; discriminate. Qed.

Definition both : list object := [Object (Some CNurbs) quarter; Object (Some CBezier) plane].

Lemma C41_example_holds : Forall own_class both /\
  Forall (fun o => storable 3 (o_core o) /\ weights_ok (o_core o) /\ one_digit (o_core o)) both /\
  length (export_irit both) = 59.
Proof.
  assert (built 3 CNurbs in_arc quarter) as B1.
  { exists (start CNurbs in_arc). split; [apply done_eq; vm_compute; reflexivity|].
    apply some_eq. vm_compute. reflexivity. }
  pose proof (C40_storable_holds _ _ _ _ _ _ _ _ complete_arc B1) as [S1 R1].
  destruct two_stored as [F G]. inversion F as [|? ? _ F']. inversion F' as [|? ? O2 _]. inversion G as [|? ? _ G'].
  inversion G' as [|? ? S2 _]. subst.
  refine (conj _ (conj _ _)); [| |vm_compute; reflexivity].
  - constructor; [|constructor; [exact O2|constructor]]. eexists. split; [reflexivity|exact R1].
  - constructor; [|constructor; [|constructor]].
    + refine (conj S1 (conj _ _)).
      * repeat constructor; discriminate.
      * repeat constructor.
    + refine (conj S2 (conj I _)). repeat constructor.
Qed.

Definition in_ten : inputs :=
  Inputs (Some [1%Z]) (Some [[0; 0; 1; 1]%Qc]) (Some [repeat 0%Qc 10; repeat 1%Qc 10]) None.

Definition ten : spline := W_Core.get no_spline (s_core (start CBSpline in_ten)).

Lemma C41_dimension_refuted_holds : exists o, own_class o /\ storable 3 (o_core o) /\ weights_ok (o_core o) /\
  load_irit 3 (export_irit [o]) = None.
Proof.
  exists (Object (Some CBSpline) ten).
  assert (built 3 CBSpline in_ten ten) as B1.
  { exists (start CBSpline in_ten). split; [apply done_eq; vm_compute; reflexivity|].
    apply some_eq. vm_compute. reflexivity. }
  assert (complete CBSpline in_ten [1%Z] (Some [[0; 0; 1; 1]%Qc]) [repeat 0%Qc 10; repeat 1%Qc 10] None) as C
    by (cbn; repeat split; discriminate).
  pose proof (C40_storable_holds _ _ _ _ _ _ _ _ C B1) as [S1 R1].
  refine (conj _ (conj S1 (conj I _))).
  - exists CBSpline. split; [reflexivity|exact R1].
  - vm_compute. reflexivity.
Qed.

Lemma C41_generic_refuted_holds : exists o, o_cls o = None /\ storable 3 (o_core o) /\ weights_ok (o_core o) /\
  one_digit (o_core o) /\ load_irit 3 (export_irit [o]) = Some [].
Proof.
  destruct C41_example_holds as (_ & F & _). inversion F as [|? ? (A & B & C) _]. subst.
  exists (Object None quarter).
  refine (conj eq_refl (conj A (conj B (conj C _)))). vm_compute. reflexivity.
Qed.

Lemma C41_low_knots_refuted_holds : exists st s,
  run 3 CBSpline (start CBSpline in_bsp) [EditKvs lower] = Some st /\ s_core st = Some s /\
  (exists degs kvs cps ws, consistent degs kvs cps ws /\ has_properties s degs kvs cps ws) /\
  load_irit 3 (export_irit [Object (Some CBSpline) s]) = None.
Proof.
  exists (after CBSpline in_bsp [EditKvs lower]), (W_Core.get no_spline (s_core (after CBSpline in_bsp [EditKvs lower]))).
  refine (conj _ (conj _ (conj _ _))).
  - apply some_eq. vm_compute. reflexivity.
  - apply some_eq. vm_compute. reflexivity.
  - destruct C40_low_knots_refuted_holds as (st & s & A & B & C & _).
    assert (Some st = Some (after CBSpline in_bsp [EditKvs lower])) as E.
    { rewrite <- A. apply some_eq. vm_compute. reflexivity. }
    injection E as <-. rewrite B. exact C.
  - vm_compute. reflexivity.
Qed.
