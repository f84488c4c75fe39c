(** InverseCross3D (C73, C74, C76), and the cell filled by Cross3D and InverseCross3D (C92). *)
From Coq Require Import String List Arith Lia ZArith QArith Qcanon Bool.
From Verif Require Import Base BaseQc S_Grid S_Spline S_Value M_Tiles M_TileMake M_TileInverse S_Tiles S_TileLimits S_TileFit P_Tile2D P_TileCross3 P_TileInverse P_TileFitAll P_TileFit W_TileFit.
Import ListNotations.
Local Open Scope list_scope.
Local Open Scope nat_scope.

Theorem C73_inverse_cross3d : forall ce ce' sep sep' cl cl' bw bw' fh fh' p p' s s' T T' D D' a,
  inverse_create ce sep cl bw fh (Some p) s = Made T D -> inverse_create ce' sep' cl' bw' fh' (Some p') s' = Made T' D' ->
  thinner ce p -> thinner ce' p' -> (separator sep < qc 1 2)%Qc -> separator sep' = separator sep -> a < 3 ->
  (open_above a cl /\ open_below a cl' /\ at2 p (2 * a + 1) 0 = at2 p' (2 * a) 0) \/
  (beside 3 a cl /\ cl' = cl /\ bw' = bw /\ fh' = fh) -> glued 3 a T T' /\ touches a 1%Qc T.
Proof. exact C73_inverse_cross3d_holds. Qed.
Print Assumptions C73_inverse_cross3d.

Theorem C74_inverse_cross3d_partial : forall ce sep cl bw fh p s T D,
  inverse_create ce sep cl bw fh (Some p) s = Made T D -> (separator sep <= qc 1 2)%Qc -> inside_cell 3 T.
Proof. exact C74_inverse_cross3d_partial_holds. Qed.
Print Assumptions C74_inverse_cross3d_partial.

Theorem C74_inverse_cross3d_refuted : exists T,
  inverse_create 1%Qc (Some (qc 3 5)) None 0%Qc 0%Qc (Some (full 6 1 (qc 1 4))) None = Made T None /\ ~ inside_cell 3 T.
Proof. exact C74_inverse_cross3d_refuted_holds. Qed.
Print Assumptions C74_inverse_cross3d_refuted.

Theorem C76_inverse_cross3d_refuted : (exists T,
    inverse_create 1%Qc None None 0%Qc 0%Qc (Some (full 6 1 (qc 1 4))) None = Made T None /\ ~ right_handed T) /\
  (exists T, inverse_create 1%Qc None (Some "z_min"%string) (qc 1 10) (qc 1 2) (Some (full 6 1 (qc 1 4))) None = Made T None /\ ~ right_handed T).
Proof. exact C76_inverse_cross3d_refuted_holds. Qed.
Print Assumptions C76_inverse_cross3d_refuted.

Theorem C92_fill_partial : forall ce sep cl bw fh p s s' T D T' D',
  cross3d_create ce cl bw fh (Some p) s = Made T D -> inverse_create ce sep cl bw fh (Some p) s' = Made T' D' ->
  (cl = None -> no_thicker ce p) -> (cl <> None -> (bw <= qc 1 3)%Qc) -> fitted 3 (T ++ T').
Proof. exact C92_fill_partial_holds. Qed.
Print Assumptions C92_fill_partial.

Theorem C92_thick_refuted : exists T T',
  cross3d_create 1%Qc None 0%Qc 0%Qc (Some [[qc 3 10]; [qc 1 5]; [qc 1 5]; [qc 1 5]; [qc 1 5]; [qc 1 5]]) None = Made T None /\
  inverse_create 1%Qc None None 0%Qc 0%Qc (Some [[qc 3 10]; [qc 1 5]; [qc 1 5]; [qc 1 5]; [qc 1 5]; [qc 1 5]]) None = Made T' None /\
  ~ fitted 3 (T ++ T').
Proof. exact C92_thick_refuted_holds. Qed.
Print Assumptions C92_thick_refuted.

Theorem C92_wall_refuted : exists T T',
  cross3d_create 1%Qc (Some "z_min"%string) (qc 2 5) (qc 1 2) (Some (full 6 1 (qc 1 4))) None = Made T None /\
  inverse_create 1%Qc None (Some "z_min"%string) (qc 2 5) (qc 1 2) (Some (full 6 1 (qc 1 4))) None = Made T' None /\
  ~ fitted 3 (T ++ T').
Proof. exact C92_wall_refuted_holds. Qed.
Print Assumptions C92_wall_refuted.

Example inverse_made :
  map (fun cl => match inverse_create 1%Qc None cl (qc 1 10) (qc 1 2) (Some (full 6 1 (qc 1 4))) None,
                       cross3d_create 1%Qc cl (qc 1 10) (qc 1 2) (Some (full 6 1 (qc 1 4))) None with
    | Made T None, Made T' None => (length T, length T') | _, _ => (0, 0) end) [None; Some "z_min"%string; Some "z_max"%string] = [(20, 7); (8, 10); (8, 10)].
Proof. exact inverse_made_holds. Qed.

Example inverse_limits : thinner 1%Qc (full 6 1 (qc 1 4)) /\ (separator None < qc 1 2)%Qc.
Proof. exact inverse_limits_holds. Qed.

Example inverse_no_thicker : no_thicker 1%Qc (full 6 1 (qc 1 4)).
Proof. exact inverse_no_thicker_holds. Qed.

Example inverse_rejected :
  map (fun a => match inverse_create 1%Qc (fst a) (snd a) (qc 1 10) (qc 1 2) (Some (full 6 1 (qc 1 4))) None with Raised e => Some e | _ => None end)
    [(Some (qc 1 5), None); (None, Some "x_min"%string); (None, None)] = [Some ValueError; Some ValueError; None].
Proof. exact inverse_rejected_holds. Qed.