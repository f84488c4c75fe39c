(** Specification vocabulary for tiles that fill the unit cell together. *)
From Coq Require Import List Arith ZArith QArith Qcanon.
From Verif Require Import Base BaseQc S_Grid S_Spline S_Value S_Tiles.
Import ListNotations.
Local Open Scope list_scope.
Local Open Scope nat_scope.

Definition patch (T : list spline) (i : nat) : spline := nth i T (Spl [] [] None).
(** Where one parameter of a patch is at a bound there is either the side of the
    cell in the same direction, or another patch that begins there: its opposite
    facet is the same surface with the same parameters. *)
Definition fitted (dim : nat) (T : list spline) : Prop :=
  forall i k up, i < length T -> k < para_dim (patch T i) ->
    on_plane (patch T i) k up k (bound up) \/
    exists j, j < length T /\ j <> i /\ para_dim (patch T j) = para_dim (patch T i) /\
      forall v c, in_box (para_dim (patch T i) - 1) v -> c < dim ->
        facet_value (patch T i) k up v c = facet_value (patch T j) k (negb up) v c.
(** The thickness at the six sides, none more than that of the center. *)
Definition mean_thickness (p : list (list Qc)) : Qc := (fold_right Qcplus 0 (concat p) / qc 6 1)%Qc.
Definition no_thicker (ce : Qc) (p : list (list Qc)) : Prop := forall x, In x (concat p) -> (x <= ce * mean_thickness p)%Qc.
(** The distance of the separation layer; 0.3 unless it is given. *)
Definition separator (sep : option Qc) : Qc := match sep with None => qc 3 10 | Some x => x end.
