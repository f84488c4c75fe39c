(** Specification of meshes of splines.  A vertex has a position: its sample number along each axis. *)
From Coq Require Import List Arith QArith Qcanon.
From Verif Require Import BaseQc S_Grid S_Spline S_Value.
Import ListNotations.
Local Open Scope list_scope.
Local Open Scope nat_scope.

(** Parameters of a position. *)
Fixpoint parameters (axes : list paxis) (res ix : list nat) : list Qc :=
  match axes, res, ix with
  | a :: axes, r :: res, i :: ix => (ax_lower a + (ax_upper a - ax_lower a) / inj (r - 1) * inj i)%Qc :: parameters axes res ix
  | _, _, _ => []
  end.
Definition point_at (dim : nat) (s : spline) (res ix : list nat) : list Qc := map (sp_value s (parameters (sp_axes s) res ix)) (seq 0 dim).

Definition position (res ix : list nat) : Prop := Forall2 (fun r i => i < r) res ix.
(** Lowest corner of a cell. *)
Definition cell (res c : list nat) : Prop := Forall2 (fun r i => i + 1 < r) res c.
Fixpoint shifted (c o : list nat) : list nat := match c, o with x :: c, y :: o => (x + y) :: shifted c o | _, _ => [] end.

Definition segment_ends : list (list nat) := [[0]; [1]].
Definition square_corners : list (list nat) := [[0; 0]; [1; 0]; [1; 1]; [0; 1]].
Definition cube_corners : list (list nat) := map (fun o => o ++ [0]) square_corners ++ map (fun o => o ++ [1]) square_corners.

(** The unit squares on the surface of the box of positions: the side where coordinate [k] is [v]. *)
Definition side (res : list nat) (k v : nat) : Prop := k < length res /\ (v = 0 \/ v = nth k res 0 - 1).
Definition square (k v : nat) (c : list nat) : list (list nat) := map (fun o => insert_at k v (shifted c o)) square_corners.
Definition surface_square (res : list nat) (q : list (list nat)) : Prop :=
  exists k v c, side res k v /\ cell (remove_at k res) c /\ q = square k v c.

(** Neighbouring corners. *)
Definition edge_of (q : list (list nat)) (x y : list nat) : Prop :=
  exists i, i < 4 /\ x = nth i q [] /\ y = nth ((i + 1) mod 4) q [].
Definition has_edge (q : list (list nat)) (x y : list nat) : Prop := edge_of q x y \/ edge_of q y x.

(** The faces [F] of a mesh in terms of positions, if vertex [v] has position [nth v P]. *)
Definition placed (P : list (list nat)) (F : list (list nat)) : list (list (list nat)) := map (map (fun v => nth v P [])) F.

(** Vertices of several patches: number of the patch and position. *)
Definition patch_point (dim : nat) (patches : list spline) (res : list nat) (px : nat * list nat) : list Qc :=
  match nth_error patches (fst px) with Some s => point_at dim s res (snd px) | None => [] end.
Definition unit_corners (n : nat) : list (list nat) := match n with 1 => segment_ends | 2 => square_corners | _ => cube_corners end.
