(** Property theorems C43, C44: tilings and closing tiles of microstructures. *)
From Coq Require Import String List Arith ZArith QArith Qcanon Lia Sorted.
From Verif Require Import Base BaseQc S_Grid S_Spline S_Value S_Knots S_Pieces S_Micro M_Bezier M_Knots M_Micro W_Knots W_KnotInsert P_Micro W_Micro.
Import ListNotations.
Local Open Scope string_scope.
Local Open Scope list_scope.
Local Open Scope nat_scope.

(** C43, knot_span_wise=True: for every deformation function with spans wide
    enough for the tolerances and every positive tiling, every span of axis k is
    divided into tiling[k] equal pieces.  [n_spans] counts spans in the knot
    vectors, [element_resolutions] is the code's count. *)
Theorem C43_span_wise :
  forall ins epsk epsd, (forall p, inserts_new (ins p)) -> (0 < epsk)%Qc -> (0 < epsd)%Qc ->
  forall axes tiling, axes <> [] ->
  Forall2 (fun a t => 0 < t /\ divisible epsk a t /\ divisible epsd a t) axes tiling ->
  exists axes', tile ins epsk epsd true axes (map Z.of_nat tiling) = (Tiled axes', map Z.of_nat tiling) /\
    Forall2 (fun at_ a' => tiled_per_span (fst at_) (snd at_) a') (combine axes tiling) axes' /\
    element_resolutions epsk axes' = map (fun x => n_spans (fst x) * snd x) (combine axes tiling) /\
    map n_spans axes' = map (fun x => n_spans (fst x) * snd x) (combine axes tiling).
Proof. exact C43_span_wise_holds. Qed.
Print Assumptions C43_span_wise.

(** C43, knot_span_wise=False.  Missing for the full statement: tilings for which
    an axis to be refined comes after one that is not, or no axis is refined;
    for these the claim is false, see below. *)
Theorem C43_global_partial :
  forall ins epsk epsd, (forall p, inserts_new (ins p)) -> (0 < epsk)%Qc -> (0 < epsd)%Qc ->
  forall fine coarse tf tc, fine <> [] ->
  Forall2 (fun a t => (divisible epsk a t /\ divisible epsd a t) /\ n_spans a < t) fine tf ->
  Forall2 (fun a t => (divisible epsk a 1 /\ divisible epsd a 1) /\ t <= n_spans a) coarse tc ->
  exists axes', tile ins epsk epsd false (fine ++ coarse) (map Z.of_nat (tf ++ tc)) =
      (Tiled (axes' ++ map with_knots coarse), map Z.of_nat (tf ++ map n_spans coarse)) /\
    Forall2 (fun at_ a' => tiled_overall (fst at_) (snd at_) a') (combine fine tf) axes' /\
    element_resolutions epsk (axes' ++ map with_knots coarse) = tf ++ map n_spans coarse /\
    map n_spans (axes' ++ map with_knots coarse) = tf ++ map n_spans coarse.
Proof. exact C43_global_partial_holds. Qed.
Print Assumptions C43_global_partial.

(** The knots handed out one by one are spread as evenly as possible. *)
Theorem C43_even :
  forall us steps, StronglySorted Qclt us -> 2 <= length us ->
  exists ns, hand_out steps (repeat 0 (length us - 1)) (diff us) = Some ns /\
    list_sum ns = steps /\ most_even (widths us) ns /\ spread us ns = divided us ns.
Proof. exact C43_even_holds. Qed.
Print Assumptions C43_even.

(** Inner knots 1/2, so two spans; tiling 3 x 2 per span; 3 overall.  Spans of width 1, 2 and 5 knots:
    pieces of width 1/3 and 1/2. *)
Example C43_example :
  (forall p, inserts_new (ins_ref p)) /\
  Forall2 (fun a t => 0 < t /\ divisible eps52 a t /\ divisible eps52 a t) [two_spans; BezierAxis 2] [3; 2] /\
  (exists axes', tile ins_ref eps52 eps52 true [two_spans; BezierAxis 2] [3; 2]%Z = (Tiled axes', [3; 2]%Z) /\
     element_resolutions eps52 axes' = [6; 2]) /\
  (Forall2 (fun a t => (divisible eps52 a t /\ divisible eps52 a t) /\ n_spans a < t) [two_spans] [3] /\
   Forall2 (fun a t => (divisible eps52 a 1 /\ divisible eps52 a 1) /\ t <= n_spans a) [two_spans] [1]) /\
  (exists axes', tile ins_ref eps52 eps52 false [two_spans; two_spans] [3; 1]%Z = (Tiled axes', [3; 2]%Z) /\
     element_resolutions eps52 axes' = [3; 2]) /\
  hand_out 5 [0; 0] (diff [0; 1; qc 3 1]%Qc) = Some [2; 3].
Proof. exact C43_example_holds. Qed.

(** Refuted: an axis that needs no knots is skipped in the list of new knots, so
    the knots of the next axis go to the wrong axis: tiling 1 x 3 gives 3 x 1
    tiles on a function with one span per axis. *)
Theorem C43_misaligned_refuted :
  exists axes axes', Forall (fun a => n_spans a = 1) axes /\ Forall (fun a => divisible eps52 a 3) axes /\
    tile ins_ref eps52 eps52 false axes [1; 3]%Z = (Tiled axes', [1; 3]%Z) /\
    element_resolutions eps52 axes' = [3; 1].
Proof. exact C43_misaligned_refuted_holds. Qed.
(** Refuted: if no axis needs knots, creation raises, for every deformation
    function and every tiling that asks for at most one tile per span. *)
Theorem C43_no_knots_refuted :
  forall ins epsk epsd axes tiling,
  Forall2 (fun a t => Z.of_nat t <= Z.of_nat (length (axis_unique epsk a)) - 1)%Z axes tiling ->
  fst (tile ins epsk epsd false axes (map Z.of_nat tiling)) = TilingError.
Proof. exact C43_no_knots_refuted_holds. Qed.
Print Assumptions C43_no_knots_refuted.
(** Refuted: creation overwrites the requested tiling: [4; 2] on a function with
    one and three spans becomes [4; 3]; the next creation, with one span per
    axis, yields 4 x 3 tiles. *)
Theorem C43_overwritten_refuted :
  exists axes1 axes2 axes1' axes2', Forall (fun a => n_spans a = 1) axes2 /\
    tile ins_ref eps52 eps52 false axes1 [4; 2]%Z = (Tiled axes1', [4; 3]%Z) /\
    tile ins_ref eps52 eps52 false axes2 [4; 3]%Z = (Tiled axes2', [4; 3]%Z) /\
    element_resolutions eps52 axes2' = [4; 3].
Proof. exact C43_overwritten_refuted_holds. Qed.
Print Assumptions C43_overwritten_refuted.
Print Assumptions C43_misaligned_refuted.

(** C44: patch (c_0, ..) of the tiled function, listed first axis fastest as the
    Bezier patches are (C45, C60): it gets the min closing tile exactly when its
    interval on axis k starts at the lower end of the domain, the max closing
    tile exactly when it ends at the upper end.  Missing: one element along k,
    where both hold and only one tile can be used, see below. *)
Theorem C44_closure_partial :
  forall eps axes uss c k a us, (0 < eps)%Qc ->
  Forall2 (fun a us => divisible eps a 1 /\ distinct_knots a us) axes uss ->
  below (map (fun us => length us - 1) uss) c ->
  nth_error axes k = Some a -> nth_error uss k = Some us -> 2 <= length us - 1 ->
  exists x, face_closure (element_resolutions eps axes) k (flat_id (map (fun us => length us - 1) uss) c) = Some x /\
    (x = MinClosure <-> nth (nth k c 0) us 0%Qc = ax_lower a) /\
    (x = MaxClosure <-> nth (nth k c 0 + 1) us 0%Qc = ax_upper a).
Proof. exact C44_closure_partial_holds. Qed.
(** The tile is closed along axis k exactly for a known name within the
    parametric dimension and a tile that has closing variants. *)
Theorem C44_request :
  forall closing_face has_closing_tile para_dim k,
  closing_axis closing_face has_closing_tile para_dim = Along k <->
  has_closing_tile = true /\ k < para_dim /\
  (closing_face = Some "x" /\ k = 0 \/ closing_face = Some "y" /\ k = 1 \/ closing_face = Some "z" /\ k = 2).
Proof. exact C44_request_holds. Qed.
Print Assumptions C44_request.
Print Assumptions C44_closure_partial.

Example C44_example :
  Forall2 (fun a us => divisible eps52 a 1 /\ distinct_knots a us) [BezierAxis 2; two_spans]
    [[0; 1]; [0; qc 1 2; 1]]%Qc /\
  below (map (fun us => length us - 1) [[0; 1]; [0; qc 1 2; 1]]%Qc) [0; 1] /\
  face_closure (element_resolutions eps52 [BezierAxis 2; two_spans]) 1 0 = Some MinClosure /\
  face_closure (element_resolutions eps52 [BezierAxis 2; two_spans]) 1 1 = Some MaxClosure /\
  map (face_closure [2; 3] 1) [0; 1; 2; 3; 4; 5] =
    map Some [MinClosure; MinClosure; NoClosure; NoClosure; MaxClosure; MaxClosure] /\
  closing_axis (Some "y") true 2 = Along 1 /\ closing_axis (Some "z") true 2 = ClosingValueError.
Proof. exact C44_example_holds. Qed.

(** Refuted: with one element along the closing axis the patch lies on both
    closing faces and gets the min closing tile only. *)
Theorem C44_single_refuted :
  forall res axis i_patch, i_patch < length (cartesian res) -> nth axis res 0 = 1 ->
  face_closure res axis i_patch = Some MinClosure.
Proof. exact C44_single_refuted_holds. Qed.
(** Refuted: an unknown name is reported as a TypeError, not as the documented
    ValueError (microstructure.py 471 tests the name instead of the axis). *)
Theorem C44_name_refuted :
  exists name, ~ In name ["x"; "y"; "z"] /\ closing_axis (Some name) true 2 = ClosingTypeError.
Proof. exact C44_name_refuted_holds. Qed.
Print Assumptions C44_name_refuted.
Print Assumptions C44_single_refuted.
