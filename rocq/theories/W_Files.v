(** Witnesses and assembly of the theorems of T_Files. *)
From Coq Require Import String List Arith ZArith Bool QArith Qcanon Lia.
From Verif Require Import Base BaseQc S_Value M_Core S_Core P_Core W_Core M_Files S_Files P_Files.
Import ListNotations.
Local Open Scope list_scope.
Local Open Scope nat_scope.

Lemma C40_npz_holds : forall limit l, Forall (fun o => storable limit (o_core o)) l ->
  exists l', load_npz limit (export_npz l) = Some l' /\ map o_core l' = map o_core l /\ Forall own_class l'.
Proof.
  intros limit l F. eexists. split; [now apply npz_roundtrip|]. split.
  - now rewrite map_map.
  - rewrite Forall_forall in *. intros o H. apply in_map_iff in H as (o' & <- & H). 
    exists (name_of (o_core o')). split; [reflexivity|]. apply (name_right _ limit). apply (F _ H).
Qed.

Lemma C40_npz_identity_partial_holds : forall limit l, Forall own_class l ->
  Forall (fun o => storable limit (o_core o)) l -> load_npz limit (export_npz l) = Some l.
Proof.
  intros limit l F1 F2. rewrite npz_roundtrip by easy. f_equal. rewrite Forall_forall in *.
  rewrite <- (map_id l) at 2. apply map_ext_in. intros o H. destruct (F1 _ H) as (c & E & R).
  destruct o as [oc s]. cbn in *. subst oc. do 2 f_equal. eapply right_unique; [|exact R].
  apply (name_right _ limit), (F2 _ H).
Qed.

Lemma C40_json_partial_holds : forall limit b64 l, Forall own_class l ->
  Forall (fun o => storable limit (o_core o)) l ->
  exists f, export_json b64 l = Some f /\ load_json limit f = Some l.
Proof. exact json_roundtrip. Qed.

Lemma C40_storable_holds : forall limit c i degs kvs cps ws s, complete c i degs kvs cps ws ->
  built limit c i s -> storable limit s /\ right_class c s.
Proof.
  intros limit c i degs kvs cps ws s C B. apply (construct_accepts _ _ _ _ _ _ _ C) in B as (B1 & B2 & B3).
  split; [now exists degs, kvs, cps, ws|].
  destruct (core_props s degs kvs cps ws B1 B3) as (_ & E2 & _ & E4 & _ & _ & K). unfold right_class. rewrite K, E4.
  destruct C as (_ & _ & C). destruct c; cbn; destruct (has_kvs s), ws; intuition congruence.
Qed.

Definition curve : spline := W_Core.get no_spline (s_core (start CNurbs in_nurbs)).

Definition plane : spline := W_Core.get no_spline (s_core (start CBezier in_bez)).

Definition two : list object := [Object (Some CNurbs) curve; Object (Some CBezier) plane].

Lemma two_stored : Forall own_class two /\ Forall (fun o => storable 3 (o_core o)) two.
Proof.
  assert (built 3 CNurbs in_nurbs curve) as B1.
  { exists (start CNurbs in_nurbs). split; [apply done_eq; vm_compute; reflexivity|].
    apply some_eq. vm_compute. reflexivity. }
  assert (built 3 CBezier in_bez plane) as B2.
  { exists (start CBezier in_bez). split; [apply done_eq; vm_compute; reflexivity|].
    apply some_eq. vm_compute. reflexivity. }
  pose proof (C40_storable_holds _ _ _ _ _ _ _ _ complete_nurbs B1) as [S1 R1].
  pose proof (C40_storable_holds _ _ _ _ _ _ _ _ complete_bez B2) as [S2 R2].
  split; repeat constructor; try (eexists; split; [reflexivity|]); assumption.
Qed.

Lemma C40_example_holds : Forall own_class two /\ Forall (fun o => storable 3 (o_core o)) two /\
  length (export_npz two) = 7 /\
  map (fun f => map (@length _) (j_splines f)) (match export_json true two with Some f => [f] | None => [] end) = [[9; 6]].
Proof.
  destruct two_stored. refine (conj _ (conj _ (conj _ _))); [assumption|assumption|vm_compute; reflexivity|vm_compute; reflexivity].
Qed.

Lemma C40_generic_refuted_holds : exists o, storable 3 (o_core o) /\ o_cls o = None /\
  load_npz 3 (export_npz [o]) <> Some [o] /\
  (exists f, export_json false [o] = Some f /\ load_json 3 f = None) /\
  export_json true [o] = None.
Proof.
  exists (Object None plane). destruct two_stored as [_ F]. inversion F as [|? ? _ F']. inversion F' as [|? ? St _]. subst.
  refine (conj St (conj eq_refl (conj _ (conj _ _)))).
  - rewrite npz_roundtrip by now constructor. cbn. discriminate.
  - eexists. split; [reflexivity|]. vm_compute. reflexivity.
  - vm_compute. reflexivity.
Qed.

Definition lower (k : list (list Qc)) : list (list Qc) := map (map (fun x => (x - qc 2 1)%Qc)) k.

Lemma C40_low_knots_refuted_holds : exists st s,
  run 3 CBSpline (start CBSpline in_bsp) [EditKvs lower] = Some st /\ s_core st = Some s /\
  (exists degs kvs cps ws, consistent degs kvs cps ws /\ has_properties s degs kvs cps ws) /\
  load_npz 3 (export_npz [Object (Some CBSpline) s]) = None /\
  (exists f, export_json false [Object (Some CBSpline) s] = Some f /\ load_json 3 f = None).
Proof.
  exists (after CBSpline in_bsp [EditKvs lower]), (W_Core.get no_spline (s_core (after CBSpline in_bsp [EditKvs lower]))).
  refine (conj _ (conj _ (conj _ (conj _ _)))).
  - apply some_eq. vm_compute. reflexivity.
  - apply some_eq. vm_compute. reflexivity.
  - exists [1%Z], (Some [[qc (-2) 1; qc (-2) 1; qc (-1) 1; qc (-1) 1]]), [[0]; [1]]%Qc, None. split.
    + refine (conj _ (conj _ (conj _ (conj _ I)))); [discriminate| | |reflexivity].
      * constructor; [|constructor]. split; [lia|]. split; [|cbn; lia].
        intros i j Hij Hj. cbn in Hj.
        do 4 (destruct i as [|i]; [do 4 (destruct j as [|j]; [try lia; cbn; discriminate|]); lia|]). lia.
      * exists 1. split; [lia|]. repeat constructor.
    + refine (conj _ (conj _ (conj _ _))); [vm_compute; reflexivity| |vm_compute; reflexivity|vm_compute; reflexivity].
      constructor; [|constructor]. exists 1. cbn. unfold lower. cbn. reflexivity.
  - vm_compute. reflexivity.
  - eexists. split; [reflexivity|]. vm_compute. reflexivity.
Qed.
