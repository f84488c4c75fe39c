(** Witnesses and assembly of the theorems of T_Faces. *)
From Coq Require Import List Arith ZArith QArith Qcanon Lia.
From Verif Require Import Base BaseQc S_Grid S_Spline S_Value M_Extract M_Faces S_Faces P_Spline P_Extract P_FacesClosed P_FacesTop W_KnotInsert P_Faces.
Import ListNotations.
Local Open Scope list_scope.
Local Open Scope nat_scope.

Definition C89_box : spline :=
  Spl [BezierAxis 1; BezierAxis 1; KnotAxis 1 [0; 0; qc 1 2; 1; 1]%Qc]
    (map (fun i => [inj (i mod 2); inj (i / 2 mod 2); inj (i / 4)]) (seq 0 12)) None.

Definition C89_patch : spline := Spl [BezierAxis 1; BezierAxis 1] [[0; 0]; [1; 0]; [0; 1]; [1; qc 2 1]]%Qc None.

Lemma C89_surface_holds :
  forall dim s res, length (sp_axes s) = 2 -> length res = 2 -> Forall (fun r => 2 <= r) res ->
  exists P F, faces dim s res = Some (map (point_at dim s res) P, F) /\
    NoDup P /\ (forall ix, In ix P <-> position res ix) /\ Forall (Forall (fun v => v < length P)) F /\
    NoDup (placed P F) /\ forall q, In q (placed P F) <-> exists c, cell res c /\ q = map (shifted c) square_corners.
Proof.
  intros dim s res La Lr Hr. unfold faces. rewrite La. apply patch_mesh; auto; rewrite Lr; [easy|apply square_units|reflexivity].
Qed.

Lemma C89_volume_holds :
  forall s res, length (sp_axes s) = 3 -> length res = 3 -> Forall (fun r => 2 <= r) res ->
  exists P V, volumes 3 s res = Some (map (point_at 3 s res) P, V) /\
    NoDup P /\ (forall ix, In ix P <-> position res ix) /\ Forall (Forall (fun v => v < length P)) V /\
    NoDup (placed P V) /\ forall q, In q (placed P V) <-> exists c, cell res c /\ q = map (shifted c) cube_corners.
Proof.
  intros s res La Lr Hr. unfold volumes. rewrite La. apply patch_mesh; auto; rewrite Lr; [easy|apply cube_units|reflexivity].
Qed.

Lemma C89_volume_faces_holds :
  forall dim s res, sp_wf s -> length (sp_axes s) = 3 -> Forall ax_clamped (sp_axes s) -> length res = 3 -> Forall (fun r => 2 <= r) res ->
  exists P F, faces dim s res = Some (map (point_at dim s res) P, F) /\ Forall (position res) P /\ Forall (Forall (fun v => v < length P)) F /\
    NoDup (placed P F) /\ forall q, In q (placed P F) <-> surface_square res q.
Proof.
  exact volume_faces.
Qed.

Lemma C89_closed_holds :
  forall res q x y, length res = 3 -> Forall (fun r => 2 <= r) res -> surface_square res q -> has_edge q x y ->
  exists q', surface_square res q' /\ has_edge q' x y /\ q' <> q /\
    forall q'', surface_square res q'' -> has_edge q'' x y -> q'' = q \/ q'' = q'.
Proof.
  intros res q x y L H. destruct res as [|n0 [|n1 [|n2 [|]]]]; try discriminate. inversion H as [|? ? N0 K1]; inversion K1 as [|? ? N1 K2]; inversion K2 as [|? ? N2 _]; subst. now apply closed_surface.
Qed.

Lemma C89_multipatch_holds :
  forall dim patches r, 2 <= r ->
  (Forall (fun s => length (sp_axes s) = 2) patches ->
   exists P F, faces_multipatch dim patches r = Some (map (patch_point dim patches [r; r]) P, F) /\
    NoDup P /\ (forall p ix, In (p, ix) P <-> p < length patches /\ position [r; r] ix) /\ Forall (Forall (fun v => v < length P)) F /\
    NoDup (map (map (fun v => nth v P (0, []))) F) /\
    forall q, In q (map (map (fun v => nth v P (0, []))) F) <-> exists p c, p < length patches /\ cell [r; r] c /\ q = map (fun o => (p, shifted c o)) square_corners) /\
  (Forall (fun s => length (sp_axes s) = 3) patches ->
   exists P F, volumes_multipatch dim patches r = Some (map (patch_point dim patches [r; r; r]) P, F) /\
    NoDup P /\ (forall p ix, In (p, ix) P <-> p < length patches /\ position [r; r; r] ix) /\ Forall (Forall (fun v => v < length P)) F /\
    NoDup (map (map (fun v => nth v P (0, []))) F) /\
    forall q, In q (map (map (fun v => nth v P (0, []))) F) <-> exists p c, p < length patches /\ cell [r; r; r] c /\ q = map (fun o => (p, shifted c o)) cube_corners).
Proof.
  intros dim patches r Hr. split; intros La.
  - unfold faces_multipatch. replace (r ^ 2) with (BaseRadix.prodn [r; r]) by (cbn; lia). apply patches_mesh; auto; apply square_units.
  - unfold volumes_multipatch. replace (r ^ 3) with (BaseRadix.prodn [r; r; r]) by (cbn; lia). apply patches_mesh; auto; apply cube_units.
Qed.

Lemma C89_control_mesh_holds :
  forall s, sp_wf s -> 1 <= length (sp_axes s) <= 3 ->
  exists F, control_mesh s = Some (sp_cps s, F) /\ NoDup F /\
    forall f, In f F <-> exists c, cell (sp_res s) c /\ f = map (fun o => flat_id (sp_res s) (shifted c o)) (unit_corners (length (sp_axes s))).
Proof.
  exact control_mesh_cells.
Qed.

Lemma C89_orientation_refuted_holds :
  forall dim s res, sp_wf s -> length (sp_axes s) = 3 -> Forall ax_clamped (sp_axes s) -> length res = 3 -> Forall (fun r => 2 <= r) res ->
  exists P F q q' x y, faces dim s res = Some (map (point_at dim s res) P, F) /\
    In q (placed P F) /\ In q' (placed P F) /\ q <> q' /\ edge_of q x y /\ edge_of q' x y.
Proof.
  intros dim s res W La Cl Lr Hr. destruct (volume_faces dim s res W La Cl Lr Hr) as (P & F & E & _ & _ & _ & H).
  exists P, F, (square 2 0 [0; 0]), (square 1 0 [0; 0]), [0; 0; 0], [1; 0; 0]. split; [exact E|].
  destruct res as [|n0 [|n1 [|n2 [|]]]]; try discriminate. inversion Hr as [|? ? N0 K1]; inversion K1 as [|? ? N1 K2]; inversion K2 as [|? ? N2 _]; subst.
  split; [apply H; exists 2, 0, [0; 0]; split; [split; cbn; auto; lia|split; [repeat constructor; lia|reflexivity]]|].
  split; [apply H; exists 1, 0, [0; 0]; split; [split; cbn; auto; lia|split; [repeat constructor; lia|reflexivity]]|].
  split; [discriminate|]. split; exists 0; (split; [lia|split; reflexivity]).
Qed.

Lemma C89_box_sound_holds : sp_wf C89_box /\ Forall ax_clamped (sp_axes C89_box).
Proof.
  assert (knot_vector 1 3 [0; 0; qc 1 2; 1; 1]%Qc) as K by lit.
  split; [split; [|split; [reflexivity|exact I]]|]; (constructor; [exact I|]); (constructor; [exact I|]); (constructor; [|constructor]).
  - exact K.
  - split; [reflexivity|]. split; [reflexivity|]. split; reflexivity.
Qed.

Lemma C89_box_faces_holds : option_map (fun m => (length (fst m), length (snd m))) (faces 3 C89_box [2; 3; 4]) = Some (52, 22).
Proof. vm_compute. reflexivity. Qed.

Lemma C89_box_uniform_holds : option_map (fun m => (length (fst m), hd [] (snd m), last (snd m) [])) (faces 3 C89_box [3; 3; 3]) = Some (54, [0; 1; 4; 3], [49; 50; 53; 52]).
Proof. vm_compute. reflexivity. Qed.

Lemma C89_box_volumes_holds : option_map (fun m => (length (fst m), snd m)) (volumes 3 C89_box [2; 2; 3]) =
  Some (12, [[0; 1; 3; 2; 4; 5; 7; 6]; [4; 5; 7; 6; 8; 9; 11; 10]]).
Proof. vm_compute. reflexivity. Qed.

Lemma C89_patch_faces_holds : faces 2 C89_patch [3; 2] = Some ([[0; 0]; [qc 1 2; 0]; [1; 0]; [0; 1]; [qc 1 2; qc 3 2]; [1; qc 2 1]]%Qc, [[0; 1; 4; 3]; [1; 2; 5; 4]]).
Proof. vm_compute. reflexivity. Qed.

Lemma C89_patches_holds : option_map snd (faces_multipatch 2 [C89_patch; C89_patch] 2) = Some [[0; 1; 3; 2]; [4; 5; 7; 6]].
Proof. vm_compute. reflexivity. Qed.

Lemma C89_edge_holds : surface_square [2; 3; 4] (square 0 1 [1; 2]) /\ has_edge (square 0 1 [1; 2]) [1; 1; 2] [1; 2; 2].
Proof.
  split; [exists 0, 1, [1; 2]; split; [split; cbn; auto; lia|split; [repeat constructor|reflexivity]]|].
  left. exists 0. split; [lia|split; reflexivity].
Qed.

Lemma C89_box_control_holds : option_map snd (control_mesh C89_box) = Some [[0; 1; 3; 2; 4; 5; 7; 6]; [4; 5; 7; 6; 8; 9; 11; 10]].
Proof. vm_compute. reflexivity. Qed.

