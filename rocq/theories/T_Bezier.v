(** Property theorems C19 - C22: splitting, conversions, rational bases. *)
From Coq Require Import List Arith ZArith QArith Qcanon Lia Permutation Sorted.
From Verif Require Import Base BaseQc BaseSort S_Grid S_Spline S_Value S_Bezier M_Bezier P_Bezier
  M_Rational S_Rational P_Rational W_KnotInsert W_Knots W_Bezier.
Import ListNotations.
Local Open Scope nat_scope.

(** C19: for any way of splitting once, splitting at locations inside the open
    unit interval, in any order, gives the parts between consecutive sorted
    locations. *)
Theorem C19_split_pieces :
  forall k ok split1, splits_values k ok split1 ->
  forall s locs, ok s -> locs <> [] -> Forall (fun x => 0 < x /\ x < 1)%Qc locs ->
  exists ps sorted, split split1 s locs = SplitPieces ps /\
    Permutation sorted locs /\ StronglySorted Qcle sorted /\
    length ps = length locs + 1 /\
    forall i a b p, nth_error (0%Qc :: sorted ++ [1%Qc]) i = Some a ->
      nth_error (0%Qc :: sorted ++ [1%Qc]) (i + 1) = Some b -> nth_error ps i = Some p ->
      is_part k a b s p.
Proof. exact split_pieces. Qed.
Print Assumptions C19_split_pieces.

(** C19: de Casteljau's algorithm is such a way, for polynomial and for rational
    nets of any degree and dimension. *)
Theorem C19_casteljau :
  forall k dim, splits_values k (bezier_net k dim) (casteljau k dim).
Proof. exact casteljau_splits. Qed.
Print Assumptions C19_casteljau.

(** C19: end points are accepted as long as 1 occurs once. *)
Theorem C19_split_closed :
  forall k ok split1, splits_values k ok split1 ->
  forall s locs, ok s -> locs <> [] -> Forall (fun x => 0 <= x /\ x <= 1)%Qc locs ->
  count_occ Qc_eq_dec locs 1%Qc <= 1 ->
  exists ps, split split1 s locs = SplitPieces ps /\
    Forall2 (fun ab p => is_part k (fst ab) (snd ab) s p) (intervals (0%Qc :: qsort locs ++ [1%Qc])) ps.
Proof. exact split_closed. Qed.
Print Assumptions C19_split_closed.

(** C19: what is rejected. *)
Theorem C19_split_raises :
  forall (split1 : spline -> Qc -> spline * spline) s locs,
  split split1 s locs = SplitRaises <-> locs = [] \/ exists x, In x locs /\ (x < 0 \/ 1 < x)%Qc.
Proof. exact split_raises. Qed.
Print Assumptions C19_split_raises.

(** C19, outside the stated domain: a repeated location 1 passes the check and
    divides by zero. *)
Theorem C19_end_twice_refuted :
  exists locs, Forall (fun x => 0 <= x /\ x <= 1)%Qc locs /\
    forall (s : spline) split1, split split1 s locs = SplitUndefined.
Proof. exact split_end_undefined. Qed.
Print Assumptions C19_end_twice_refuted.

Example C19_example :
  bezier_net 0 2 wit_bezier /\ bezier_net 0 2 wit_poly /\
  match split (casteljau 0 2) wit_poly [qc 3 4; qc 1 4] with
  | SplitPieces [p; q; r] =>
      (map (fun t => sp_value q [t] 0) [0; 1] = [sp_value wit_poly [qc 1 4] 0; sp_value wit_poly [qc 3 4] 0])%Qc
  | _ => False
  end.
Proof.
  split; [apply wit_bezier_net; lia|]. split; [exact wit_poly_net|].
  match goal with |- match ?x with _ => _ end => let y := eval vm_compute in x in change x with y end.
  qceq.
Qed.

(** C20 *)
Theorem C20_knots :
  forall s, is_bezier s ->
  Forall2 (fun a a' => a' = KnotAxis (ax_degree a) (repeat 0%Qc (ax_degree a + 1) ++ repeat 1%Qc (ax_degree a + 1)))
    (sp_axes s) (sp_axes (bezier_to_bspline s)) /\
  sp_cps (bezier_to_bspline s) = sp_cps s /\ sp_weights (bezier_to_bspline s) = sp_weights s.
Proof. exact bezier_to_bspline_knots. Qed.
Print Assumptions C20_knots.

Theorem C20_basis :
  forall p u i, i <= p ->
  bspline_basis (repeat 0%Qc (p + 1) ++ repeat 1%Qc (p + 1)) p (p + 1) u i = bernstein p i u.
Proof. exact bezier_knots_basis. Qed.
Print Assumptions C20_basis.

Theorem C20_bspline_value :
  forall s us d, is_bezier s -> sp_domain s us ->
  sp_domain (bezier_to_bspline s) us /\ sp_value (bezier_to_bspline s) us d = sp_value s us d.
Proof. exact bezier_to_bspline_value. Qed.
Print Assumptions C20_bspline_value.

Theorem C20_nurbs_value :
  forall s us d, is_bezier s -> sp_wf s -> sp_weights s = None -> sp_domain s us ->
  sp_wf (bezier_to_nurbs s) /\ sp_domain (bezier_to_nurbs s) us /\
  sp_value (bezier_to_nurbs s) us d = sp_value s us d.
Proof. exact bezier_to_nurbs_value. Qed.
Print Assumptions C20_nurbs_value.

(** The B-spline to NURBS conversion. *)
Theorem C20_unit_weights :
  forall s us d, sp_wf s -> sp_domain s us -> sp_weights s = None ->
  sp_value (unit_weights s) us d = sp_value s us d.
Proof. exact unit_weights_value. Qed.
Print Assumptions C20_unit_weights.

Example C20_example :
  is_bezier wit_bezier /\ sp_domain wit_bezier wit_us /\ is_bezier wit_poly /\ sp_wf wit_poly /\
  sp_domain wit_poly [qc 1 3].
Proof.
  split; [apply (wit_bezier_net 0); lia|]. split; [repeat constructor; vm_compute; discriminate|].
  split; [apply wit_poly_net|]. split; [apply wit_poly_net|]. repeat constructor; vm_compute; discriminate.
Qed.

(** C21: the weighted sum only has to be non-zero. *)
Theorem C21_sum :
  forall Ns ws supp,
  qsum (map (fun Ni => fst Ni * nth (snd Ni) ws 0)%Qc (combine Ns supp)) <> 0%Qc ->
  qsum (rational_basis Ns ws supp) = 1%Qc.
Proof. exact rational_sum. Qed.
Print Assumptions C21_sum.

Theorem C21_positive_weights :
  forall axes us ws,
  Forall axis_wf axes -> Forall2 (fun a u => in_domain (fst a) (n_basis a) (snd a) u) axes us ->
  length ws = fold_right Nat.mul 1 (map n_basis axes) -> Forall (fun w => 0 < w)%Qc ws ->
  let R := rational_basis (local_basis axes us) ws (support_of axes us) in
  length R = length (support_of axes us) /\
  Forall (fun g => g < length ws) (support_of axes us) /\
  Forall (fun r => 0 <= r)%Qc R /\ qsum R = 1%Qc.
Proof. exact rational_positive. Qed.
Print Assumptions C21_positive_weights.

Theorem C21_scaling :
  forall Ns ws supp c, c <> 0%Qc ->
  rational_basis Ns (map (Qcmult c) ws) supp = rational_basis Ns ws supp.
Proof. exact rational_scale. Qed.
Print Assumptions C21_scaling.

(** C21: evaluation is the combination of the control points named by the
    support, at every query of the parametric domain. *)
Theorem C21_value :
  forall axes cps ws us d,
  Forall axis_wf axes -> Forall2 (fun a u => in_domain (fst a) (n_basis a) (snd a) u) axes us ->
  qsum (map (fun Rg => fst Rg * nth d (nth (snd Rg) cps []) 0)%Qc
     (combine (rational_basis (local_basis axes us) ws (support_of axes us)) (support_of axes us))) =
  sp_value (Spl (map (fun a => KnotAxis (fst a) (snd a)) axes) cps (Some ws)) us d.
Proof. exact nurbs_value. Qed.
Print Assumptions C21_value.

Theorem C21_value_polynomial :
  forall axes cps us d,
  Forall axis_wf axes -> Forall2 (fun a u => in_domain (fst a) (n_basis a) (snd a) u) axes us ->
  qsum (map (fun Ng => fst Ng * nth d (nth (snd Ng) cps []) 0)%Qc
     (combine (local_basis axes us) (support_of axes us))) =
  sp_value (Spl (map (fun a => KnotAxis (fst a) (snd a)) axes) cps None) us d.
Proof. exact bspline_value. Qed.
Print Assumptions C21_value_polynomial.

Example C21_example :
  Forall axis_wf wit_axes /\ Forall2 (fun a u => in_domain (fst a) (n_basis a) (snd a) u) wit_axes wit_us /\
  length wit_ws = fold_right Nat.mul 1 (map n_basis wit_axes) /\ Forall (fun w => 0 < w)%Qc wit_ws /\
  support_of wit_axes wit_us = [1; 2; 3; 5; 6; 7].
Proof.
  split; [exact wit_axes_wf|]. split; [exact wit_us_dom|]. split; [reflexivity|].
  split; [repeat constructor|vm_compute; reflexivity].
Qed.

(** C22: the returned values are the only ones that satisfy Leibniz' rule, and
    such values exist. *)
Theorem C22_quotient_rule :
  forall N w n order,
  weight_derivative N w n (map (fun _ => 0) order) <> 0%Qc ->
  (exists R, quotient_rule N w n order R) /\
  forall R, quotient_rule N w n order R ->
    rational_basis_derivative N w n order = map (R order) (seq 0 n).
Proof. exact rational_derivative_correct. Qed.
Print Assumptions C22_quotient_rule.

(** First and mixed second derivatives of two functions on a square. *)
Example C22_example :
  let N := fun a i => nth i (match a with
             | [0; 0] => [qc 1 3; qc 2 3] | [1; 0] => [- (1); 1] | [0; 1] => [inj 2; - (inj 2)]
             | _ => [qc 1 2; - (qc 1 2)] end)%Qc 0%Qc in
  let w := fun i => nth i [1; inj 3]%Qc 0%Qc in
  weight_derivative N w 2 [0; 0] <> 0%Qc /\
  rational_basis_derivative N w 2 [1; 1] = [qc (-1107) 686; qc 1107 686].
Proof. split; [vm_compute; discriminate|]. qceq. Qed.
