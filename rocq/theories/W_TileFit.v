(** Witnesses and assembly of the theorems of T_TileFit. *)
From Coq Require Import String List Arith Lia ZArith QArith Qcanon Bool.
From Verif Require Import Base BaseQc S_Grid S_Spline S_Value M_Tiles M_TileMake M_TileInverse S_Tiles S_TileLimits S_TileFit P_Tile2D P_TileCross3 P_TileInverse P_TileInverseTurned P_TileFitAll P_TileFit.
Import ListNotations.
Local Open Scope list_scope.
Local Open Scope nat_scope.

Lemma C73_inverse_cross3d_holds : forall ce ce' sep sep' cl cl' bw bw' fh fh' p p' s s' T T' D D' a,
  inverse_create ce sep cl bw fh (Some p) s = Made T D -> inverse_create ce' sep' cl' bw' fh' (Some p') s' = Made T' D' ->
  thinner ce p -> thinner ce' p' -> (separator sep < qc 1 2)%Qc -> separator sep' = separator sep -> a < 3 ->
  (open_above a cl /\ open_below a cl' /\ at2 p (2 * a + 1) 0 = at2 p' (2 * a) 0) \/
  (beside 3 a cl /\ cl' = cl /\ bw' = bw /\ fh' = fh) -> glued 3 a T T' /\ touches a 1%Qc T.
Proof. intros until a. intros H H' S S' L E Ha C. split; [exact (inverse_glued _ _ _ _ _ _ _ _ _ _ _ _ _ _ _ _ _ _ _ H H' S S' L E Ha C)|eapply inverse_touches; eauto; tauto]. Qed.

Lemma C74_inverse_cross3d_partial_holds : forall ce sep cl bw fh p s T D,
  inverse_create ce sep cl bw fh (Some p) s = Made T D -> (separator sep <= qc 1 2)%Qc -> inside_cell 3 T.
Proof. exact inverse_inside. Qed.

Lemma C74_inverse_cross3d_refuted_holds : exists T,
  inverse_create 1%Qc (Some (qc 3 5)) None 0%Qc 0%Qc (Some (full 6 1 (qc 1 4))) None = Made T None /\ ~ inside_cell 3 T.
Proof. exact inverse_outside. Qed.

Lemma C92_fill_partial_holds : forall ce sep cl bw fh p s s' T D T' D',
  cross3d_create ce cl bw fh (Some p) s = Made T D -> inverse_create ce sep cl bw fh (Some p) s' = Made T' D' ->
  (cl = None -> no_thicker ce p) -> (cl <> None -> (bw <= qc 1 3)%Qc) -> fitted 3 (T ++ T').
Proof. exact fill. Qed.

Lemma C92_thick_refuted_holds : exists T T',
  cross3d_create 1%Qc None 0%Qc 0%Qc (Some [[qc 3 10]; [qc 1 5]; [qc 1 5]; [qc 1 5]; [qc 1 5]; [qc 1 5]]) None = Made T None /\
  inverse_create 1%Qc None None 0%Qc 0%Qc (Some [[qc 3 10]; [qc 1 5]; [qc 1 5]; [qc 1 5]; [qc 1 5]; [qc 1 5]]) None = Made T' None /\
  ~ fitted 3 (T ++ T').
Proof. exact thick_misfit. Qed.

Lemma C92_wall_refuted_holds : exists T T',
  cross3d_create 1%Qc (Some "z_min"%string) (qc 2 5) (qc 1 2) (Some (full 6 1 (qc 1 4))) None = Made T None /\
  inverse_create 1%Qc None (Some "z_min"%string) (qc 2 5) (qc 1 2) (Some (full 6 1 (qc 1 4))) None = Made T' None /\
  ~ fitted 3 (T ++ T').
Proof. exact wall_misfit. Qed.

Lemma inverse_made_holds :
  map (fun cl => match inverse_create 1%Qc None cl (qc 1 10) (qc 1 2) (Some (full 6 1 (qc 1 4))) None,
                       cross3d_create 1%Qc cl (qc 1 10) (qc 1 2) (Some (full 6 1 (qc 1 4))) None with
    | Made T None, Made T' None => (length T, length T') | _, _ => (0, 0) end) [None; Some "z_min"%string; Some "z_max"%string] = [(20, 7); (8, 10); (8, 10)].
Proof. vm_compute. reflexivity. Qed.

Lemma inverse_limits_holds : thinner 1%Qc (full 6 1 (qc 1 4)) /\ (separator None < qc 1 2)%Qc.
Proof. split; [intros x Hx; vm_compute in Hx; repeat (destruct Hx as [<-|Hx]; [split; vm_compute; reflexivity|]); destruct Hx|reflexivity]. Qed.

Lemma inverse_no_thicker_holds : no_thicker 1%Qc (full 6 1 (qc 1 4)).
Proof. intros x Hx. vm_compute in Hx. repeat (destruct Hx as [<-|Hx]; [vm_compute; discriminate|]). destruct Hx. Qed.

Lemma inverse_rejected_holds :
  map (fun a => match inverse_create 1%Qc (fst a) (snd a) (qc 1 10) (qc 1 2) (Some (full 6 1 (qc 1 4))) None with Raised e => Some e | _ => None end)
    [(Some (qc 1 5), None); (None, Some "x_min"%string); (None, None)] = [Some ValueError; Some ValueError; None].
Proof. vm_compute. reflexivity. Qed.

Lemma C76_inverse_cross3d_refuted_holds : (exists T,
    inverse_create 1%Qc None None 0%Qc 0%Qc (Some (full 6 1 (qc 1 4))) None = Made T None /\ ~ right_handed T) /\
  (exists T, inverse_create 1%Qc None (Some "z_min"%string) (qc 1 10) (qc 1 2) (Some (full 6 1 (qc 1 4))) None = Made T None /\ ~ right_handed T).
Proof. exact (conj inverse_turned inverse_closing_turned). Qed.
