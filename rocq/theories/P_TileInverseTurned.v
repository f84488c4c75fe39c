(** InverseCross3D: patches that are partly turned inside out. *)
From Coq Require Import String List Arith Lia ZArith QArith Qcanon Bool.
From Verif Require Import Base BaseQc S_Grid S_Spline S_Value S_Deriv S_Integrate
  M_Tiles M_TileMake M_TileInverse S_Tiles P_Tiles P_TileNot.
Import ListNotations.
Local Open Scope list_scope.
Local Open Scope nat_scope.

Definition made_tile (m : made) : tile := match m with Made T _ => T | Raised _ => [] end.
Lemma inverse_turned : exists T, inverse_create 1%Qc None None 0%Qc 0%Qc (Some (full 6 1 (qc 1 4))) None = Made T None /\ ~ right_handed T.
Proof.
  exists (made_tile (inverse_create 1%Qc None None 0%Qc 0%Qc (Some (full 6 1 (qc 1 4))) None)). split; [vm_compute; reflexivity|].
  eapply (turned _ 12 [2; 2; 2] _ [qc 1 100; qc 99 100; qc 99 100]); [vm_compute; reflexivity|vm_compute; lia|reflexivity|repeat constructor|].
  intro Z. vm_compute in Z. discriminate Z.
Qed.
Lemma inverse_closing_turned : exists T, inverse_create 1%Qc None (Some "z_min"%string) (qc 1 10) (qc 1 2) (Some (full 6 1 (qc 1 4))) None = Made T None /\ ~ right_handed T.
Proof.
  exists (made_tile (inverse_create 1%Qc None (Some "z_min"%string) (qc 1 10) (qc 1 2) (Some (full 6 1 (qc 1 4))) None)). split; [vm_compute; reflexivity|].
  eapply (turned _ 4 [2; 2; 2] _ [qc 99 100; qc 99 100; qc 1 2]); [vm_compute; reflexivity|vm_compute; lia|reflexivity|repeat constructor|].
  intro Z. vm_compute in Z. discriminate Z.
Qed.
