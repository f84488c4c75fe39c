(** Witnesses and assembly of the theorems of T_Pieces. *)
From Coq Require Import List Arith ZArith QArith Qcanon Lia Sorted.
From Verif Require Import Base BaseQc S_Grid S_Spline S_Value S_Knots M_Knots W_Knots M_Pieces S_Pieces P_Pieces.
Import ListNotations.
Local Open Scope nat_scope.

Lemma C45_ids_holds :
  forall ms degrees, length ms = length degrees ->
  length (bezier_patch_ids ms degrees) = fold_right Nat.mul 1 (patches_per_axis ms) /\
  forall c, below (patches_per_axis ms) c ->
  exists ids, nth_error (bezier_patch_ids ms degrees) (flat_id (patches_per_axis ms) c) = Some ids /\
    length ids = fold_right Nat.mul 1 (map (fun d => d + 1) degrees) /\
    forall j, below (map (fun d => d + 1) degrees) j ->
    nth_error ids (flat_id (map (fun d => d + 1) degrees) j) =
    Some (flat_id (points_per_axis ms degrees) (patch_index ms c j)).
Proof. exact patch_ids_spec. Qed.

Lemma C45_example_holds :
  bezier_patch_ids [[3; 3; 3]; [2; 1; 1; 2]] [2; 1] =
  [[0; 1; 2; 6; 7; 8]; [3; 4; 5; 9; 10; 11]; [6; 7; 8; 12; 13; 14];
   [9; 10; 11; 15; 16; 17]; [12; 13; 14; 18; 19; 20]; [15; 16; 17; 21; 22; 23]] /\
  below (patches_per_axis [[3; 3; 3]; [2; 1; 1; 2]]) [1; 2] /\
  patch_index [[3; 3; 3]; [2; 1; 1; 2]] [1; 2] [0; 1] = [3; 3].
Proof. split; [reflexivity|]. split; [|reflexivity]. repeat constructor. Qed.

Lemma C60_values_holds :
  forall eps s um,
  (0 < eps)%Qc -> sp_wf s -> bezier_form (sp_axes s) um -> Forall (fun x => apart eps (fst x)) um ->
  match sp_weights s with None => True | Some ws => Forall (fun w => w <> 0%Qc) ws end ->
  exists bs, bezier_pieces eps s = Some bs /\ length bs = fold_right Nat.mul 1 (patch_counts um) /\
  forall c, below (patch_counts um) c ->
  exists b, nth_error bs (flat_id (patch_counts um) c) = Some b /\
    sp_axes b = map (fun a => BezierAxis (ax_degree a)) (sp_axes s) /\ sp_wf b /\
    (sp_weights b = None <-> sp_weights s = None) /\
    forall ts us d, patch_parameter (sp_axes s) um c ts us -> sp_value b ts d = sp_value s us d.
Proof. exact pieces_spec. Qed.

Definition bent : spline :=
  Spl [KnotAxis 2 [0; 0; 0; qc 1 2; qc 1 2; 1; 1; 1]%Qc]
      [[0; 0]%Qc; [1; qc 2 1]%Qc; [qc 2 1; qc 2 1]; [qc 3 1; 0]%Qc; [qc 4 1; 1]%Qc]
      (Some [1; qc 2 1; 1; qc 1 2; 1]%Qc).

Lemma C60_example_holds :
  sp_wf bent /\ bezier_form (sp_axes bent) [([0; qc 1 2; 1]%Qc, [3; 2; 3])] /\
  apart eps52 [0; qc 1 2; 1]%Qc /\
  patch_parameter (sp_axes bent) [([0; qc 1 2; 1]%Qc, [3; 2; 3])] [1] [qc 1 2] [qc 3 4] /\
  bezier_pieces eps52 bent =
  Some [Spl [BezierAxis 2] [[0; 0]%Qc; [1; qc 2 1]%Qc; [qc 2 1; qc 2 1]] (Some [1; qc 2 1; 1]%Qc);
        Spl [BezierAxis 2] [[qc 2 1; qc 2 1]; [qc 3 1; 0]%Qc; [qc 4 1; 1]%Qc] (Some [1; qc 1 2; 1]%Qc)].
Proof.
  refine (conj _ (conj _ (conj _ (conj _ _)))).
  - split; [|split; reflexivity]. repeat constructor. intros i j Hij Hj. cbn in Hj.
    do 8 (destruct i; [do 8 (destruct j; [first [lia|unfold Qcle, Qle; vm_compute; discriminate]|]); lia|]). lia.
  - constructor; [|constructor]. exists 2, [0; 0; 0; qc 1 2; qc 1 2; 1; 1; 1]%Qc. split; [reflexivity|].
    refine (conj eq_refl (conj _ (conj eq_refl (conj _ (conj eq_refl (conj eq_refl _)))))).
    + repeat constructor.
    + cbn. lia.
    + intros [|[|[|i]]] Hi; cbn in *; lia.
  - intros x y Hx Hy. cbn in Hx, Hy.
    destruct Hx as [<-|[<-|[<-|[]]]], Hy as [<-|[<-|[<-|[]]]]; try (now left); right;
      unfold Qcle, Qle; vm_compute; discriminate.
  - constructor; [|constructor]. cbn [fst snd ax_degree].
    refine (conj _ (conj _ (conj _ (conj _ _)))); cbn [length]; try lia.
    + unfold Qcle, Qle; vm_compute; discriminate.
    + unfold Qcle, Qle; vm_compute; discriminate.
    + qceq.
  - qceq.
Qed.

