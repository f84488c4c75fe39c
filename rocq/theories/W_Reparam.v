(** Concrete witnesses for the reparametrization theorems. *)
From Coq Require Import List Arith ZArith QArith Qcanon Lia Permutation.
From Verif Require Import Base BaseQc S_Spline S_Value M_Reparam S_Reparam W_KnotInsert.
Import ListNotations.
Local Open Scope nat_scope.

Definition wit_jump : spline :=
  Spl [KnotAxis 1 [0; 0; qc 1 2; qc 1 2; 1; 1]%Qc] [[inj 0]; [inj 1]; [inj 2]; [inj 3]] None.
Lemma flip_jump :
  exists s s' u,
    sp_wf s /\ sp_domain s [u] /\ flip_axes s [0%Z] = Some s' /\
    sp_value s' [u] 0 <> sp_value s (flip_params [0] (sp_axes s) [u]) 0.
Proof.
  exists wit_jump. eexists. exists (qc 1 2).
  split; [|split; [|split; [reflexivity|]]].
  - split; [|split; reflexivity]. constructor; [|constructor]. apply knot_vector_dec. vm_compute. reflexivity.
  - constructor; [|constructor]. split; vm_compute; discriminate.
  - vm_compute. discriminate.
Qed.

Definition wit_repeat : spline :=
  Spl [KnotAxis 1 [0; 0; qc 1 4; 1; 1]%Qc] [[inj 0]; [inj 1]; [inj 5]] None.
Lemma flip_repeat :
  exists s s' u,
    sp_wf s /\ sp_domain s [u] /\ flip_axes s [0%Z; 0%Z] = Some s' /\
    sp_value s' [u] 0 <> sp_value s (flip_params [0] (sp_axes s) [u]) 0 /\
    sp_value s' [u] 0 <> sp_value s [u] 0.
Proof.
  exists wit_repeat. eexists. exists (qc 1 2).
  split; [|split; [|split; [reflexivity|]]].
  - split; [|split; reflexivity]. constructor; [|constructor]. apply knot_vector_dec. vm_compute. reflexivity.
  - constructor; [|constructor]. split; vm_compute; discriminate.
  - split; vm_compute; discriminate.
Qed.

(** A NURBS surface with one inner knot. *)
Definition wit_surface : spline :=
  Spl [KnotAxis 2 [0; 0; 0; qc 1 4; 1; 1; 1]%Qc; KnotAxis 1 [0; 0; 1; 1]%Qc]
      (map (fun i => [inj i; inj (i * i)]) (seq 0 8))
      (Some (map (fun i => inj (i + 1)) (seq 0 8))).
Lemma wit_surface_wf : sp_wf wit_surface.
Proof.
  split; [|split; reflexivity].
  constructor; [|constructor; [|constructor]]; apply knot_vector_dec; vm_compute; reflexivity.
Qed.
