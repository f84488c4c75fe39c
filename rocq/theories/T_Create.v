(** Property theorems C46, C47, C61, C62, C63, C64: created splines. *)
From Coq Require Import List Arith ZArith Lia Bool QArith Qcanon.
From Verif Require Import Base BaseQc S_Spline P_Spline S_Value P_Value M_Core S_Core M_Files S_Files M_Bezier P_Bezier M_Elevate S_Knots S_Pieces
  W_Knots M_Create S_Create P_Revolve P_Shapes P_Create W_Create.
Import ListNotations.
Local Open Scope list_scope.
Local Open Scope nat_scope.


(** C46: extruded splines are accepted and evaluate to S(u) + t v; missing
    coordinates are zeros. *)
Theorem C46_value :
  forall limit dim s v, sound limit dim s -> dim <= length v -> room limit (length v) s ->
  exists i s', extruded s v = Some i /\ make limit s i = Some s' /\
    (forall us t, sp_domain s' (us ++ [t]) <-> sp_domain s us /\ (0 <= t)%Qc /\ (t <= 1)%Qc) /\
    forall us t d, sp_domain s us ->
      sp_value s' (us ++ [t]) d = (embedded_in dim (sp_value s us) d + t * nth d v 0)%Qc.
Proof. exact C46_value_holds. Qed.
Print Assumptions C46_value.

(** It raises exactly for vectors with too few coordinates. *)
Theorem C46_raises :
  forall limit dim s v, sound limit dim s -> (extruded s v = None <-> length v < dim).
Proof. exact C46_raises_holds. Qed.
Print Assumptions C46_raises.

(** Embedding: surplus coordinates are dropped, missing ones are zeros. *)
Theorem C46_embedded :
  forall limit dim s n, sound limit dim s -> 1 <= n ->
  ((exists p, In (BezierAxis p) (sp_axes s)) -> n <= limit) ->
  exists i s', embedded s (Z.of_nat n) = Some i /\ make limit s i = Some s' /\
    Forall (fun p => length p = n) (sp_cps s') /\ (forall us, sp_domain s' us <-> sp_domain s us) /\
    forall us d, sp_domain s us -> d < n -> sp_value s' us d = embedded_in dim (sp_value s us) d.
Proof. exact C46_embedded_holds. Qed.
Print Assumptions C46_embedded.


Example C46_example :
  sound 10 2 nurbs_line /\ room 10 3 nurbs_line /\
  exists i s', extruded nurbs_line [1; 0; qc 3 1]%Qc = Some i /\ make 10 nurbs_line i = Some s' /\
    map (sp_value s' [qc 1 2; qc 1 3]) [0; 1; 2] = [qc 2 1; qc 2 3; 1]%Qc.
Proof. exact C46_example_holds. Qed.

(** C47: whatever is handed to the constructor has matching sizes: extrusions,
    revolutions for every number of segments asked for, lines. *)
Theorem C47_extruded :
  forall limit dim s v i, sound limit dim s -> extruded s v = Some i -> matching (name_of s) i.
Proof. exact C47_extruded_holds. Qed.
Print Assumptions C47_extruded.
Theorem C47_revolved :
  forall O limit dim s axis center angle asked degree i, constants O -> square O -> sound limit dim s ->
  revolved O s axis center angle asked degree = Some i -> matching (name_of s) i.
Proof. exact C47_revolved_holds. Qed.
Print Assumptions C47_revolved.
(** When revolved raises. *)
Theorem C47_revolved_raises :
  forall O limit dim s axis center angle asked degree, constants O -> sound limit dim s ->
  exists n, enough_spans O (radians O angle degree) asked n /\
  let dim' := revolved_dim dim axis in
  ((exists i, revolved O s axis center angle asked degree = Some i) <->
   dim <= dim' /\ (dim' = 2 \/ dim' = 3) /\
   match axis with Some v => (o_tolerance O < qabs (o_norm O v))%Qc | None => dim = 2 end /\
   match center with Some c => length c = dim' | None => True end /\
   (n = 1 \/ exists p kv, In (KnotAxis p kv) (sp_axes s))).
Proof. exact C47_revolved_raises_holds. Qed.
Print Assumptions C47_revolved_raises.
Theorem C47_line :
  forall dim points, 0 < dim -> Forall (fun p => length p = dim) points -> 2 <= length points ->
  matching CBSpline (line points).
Proof. exact C47_line_holds. Qed.
Print Assumptions C47_line.

(** Boxes and boxes with bounds: accepted as far as the library goes. *)
Theorem C47_box :
  forall limit lengths, (exists s, box limit lengths = Some s) <-> 1 <= length lengths <= limit.
Proof. exact C47_box_holds. Qed.
Print Assumptions C47_box.

Example C47_example :
  (exists i, revolved (Oracles (fun x => x) (fun x => x) (qc 22 7) (fun _ => 1%Qc) (fun _ _ => [[1; 0]; [0; 1]]%Qc) (qc 1 1000))
     nurbs_line None None None (Some 7%Z) true = Some i /\
   exists kvs, in_kvs i = Some kvs /\ map (@length Qc) kvs = [4; 18]) /\
  (exists s, box 10 [1; qc 2 1; qc 3 1]%Qc = Some s /\ length (sp_cps s) = 8) /\
  matching CBSpline (line [[0; 1]; [1; 1]; [qc 3 1; 0]]%Qc).
Proof. exact C47_example_holds. Qed.


(** C61: a revolved spline is accepted; at its i-th knot it is the given spline
    turned by i/n of the angle.  Revolved rational splines are surfaces of
    revolution: every point is a point of the given spline turned about the axis
    through the center. *)
Theorem C61_revolution :
  forall O limit dim s axis center angle asked degree i, constants O -> sound limit dim s ->
  revolved O s axis center angle asked degree = Some i -> room limit (revolved_dim dim axis) s ->
  match axis with Some v => measures O v | None => True end ->
  let rad := radians O angle degree in
  let dim' := revolved_dim dim axis in
  let k := as_vector (direction O axis) in
  let from_center us e := (embedded_in dim (sp_value s us) e - origin center e)%Qc in
  exists n, enough_spans O rad asked n /\
  let a := (rad / (inj 2 * inj n))%Qc in
  (circular O a -> rotates O (direction O axis) a ->
   exists r, make limit s i = Some r /\
     (forall us t, sp_domain r (us ++ [t]) <-> sp_domain s us /\ (0 <= t)%Qc /\ (t <= inj n)%Qc) /\
     (forall us m d, sp_domain s us -> m <= n -> d < dim' ->
        sp_value r (us ++ [inj m]) d =
        (origin center d + turned k (o_cos O (inj m * rad / inj n)) (o_sin O (inj m * rad / inj n)) (from_center us) d)%Qc) /\
     (sp_weights s <> None -> forall us t, sp_domain s us -> (0 <= t)%Qc -> (t <= inj n)%Qc ->
        exists al be, (al * al + be * be)%Qc = 1%Qc /\
          forall d, d < dim' -> sp_value r (us ++ [t]) d = (origin center d + turned k al be (from_center us) d)%Qc)).
Proof. exact C61_revolution_holds. Qed.
Print Assumptions C61_revolution.

(** Cosine 3/5 and sine 4/5 for the angle 1/2; 22/7 for pi. *)

(** A rational segment turned by 2 about the vertical through (0, 1, 0), two
    segments; the result half way through the first one. *)
Example C61_example :
  let axis := Some [0; 0; qc 2 1]%Qc in
  let center := Some [0; 1; 0]%Qc in
  constants turn_oracles /\ sound 10 2 nurbs_line /\ room 10 3 nurbs_line /\ measures turn_oracles [0; 0; qc 2 1]%Qc /\
  circular turn_oracles (qc 2 1 / (inj 2 * inj 2))%Qc /\
  rotates turn_oracles (direction turn_oracles axis) (qc 2 1 / (inj 2 * inj 2))%Qc /\
  exists i r, revolved turn_oracles nurbs_line axis center (Some (qc 2 1)) (Some 2%Z) false = Some i /\
    make 10 nurbs_line i = Some r /\
    map (sp_value r [0; 1]%Qc) [0; 1; 2] = [qc 17 25; qc 56 25; 0]%Qc /\
    map (sp_value r [0; qc 1 2]%Qc) [0; 1; 2] = [qc 7 5; qc 6 5; 0]%Qc.
Proof. exact C61_example_holds. Qed.

(** C62: a line is the polyline through its points, at constant parameter
    distance 1/n. *)
Theorem C62_line :
  forall limit dim points n, 1 <= limit -> 0 < dim -> Forall (fun p => length p = dim) points ->
  1 <= n -> length points = n + 1 ->
  exists s, make_line limit points = Some s /\
    (forall u, sp_domain s [u] <-> (0 <= u)%Qc /\ (u <= 1)%Qc) /\
    forall c t d, c < n -> (0 <= t)%Qc -> (t <= 1)%Qc ->
      sp_value s [(inj c + t) / inj n]%Qc d =
      ((1 - t) * nth d (nth c points []) 0 + t * nth d (nth (c + 1) points []) 0)%Qc.
Proof. exact C62_line_holds. Qed.
Print Assumptions C62_line.

(** Fewer than two points are rejected. *)
Theorem C62_short :
  forall limit points, length points <= 1 -> make_line limit points = None.
Proof. exact C62_short_holds. Qed.
Print Assumptions C62_short.

Example C62_example :
  exists s, make_line 10 [[0; 1]; [qc 2 1; 1]; [qc 2 1; qc 5 1]]%Qc = Some s /\
    map (sp_value s [qc 3 4]) [0; 1] = [qc 2 1; qc 3 1].
Proof. exact C62_example_holds. Qed.

(** C63: a box maps the unit cube by scaling each coordinate. *)
Theorem C63_box :
  forall limit lengths s, box limit lengths = Some s ->
  sp_axes s = repeat (BezierAxis 1) (length lengths) /\ Forall (fun p => length p = length lengths) (sp_cps s) /\
  forall us d, sp_domain s us -> sp_value s us d = (nth d us 0 * nth d lengths 0)%Qc.
Proof. exact C63_box_holds. Qed.
Print Assumptions C63_box.

(** C63: from_bounds maps the parametric box affinely to the physical box; knots
    must not be less than -1; surplus parametric bounds are ignored. *)
Theorem C63_bounds_partial :
  forall limit plo phi lo hi, length hi = length lo -> 1 <= length lo <= limit ->
  length lo <= length plo -> length lo <= length phi ->
  (forall d, d < length lo -> (qc (-1) 1 <= nth d plo 0)%Qc /\ (nth d plo 0 < nth d phi 0)%Qc) ->
  exists s, from_bounds limit plo phi lo hi = Some s /\
    (forall us, sp_domain s us <-> length us = length lo /\
       forall d, d < length lo -> (nth d plo 0 <= nth d us 0)%Qc /\ (nth d us 0 <= nth d phi 0)%Qc) /\
    forall us d, sp_domain s us -> d < length lo ->
      sp_value s us d =
      (nth d lo 0 + (nth d us 0 - nth d plo 0) / (nth d phi 0 - nth d plo 0) * (nth d hi 0 - nth d lo 0))%Qc.
Proof. exact C63_bounds_partial_holds. Qed.
Print Assumptions C63_bounds_partial.

Example C63_example :
  (exists s, box 10 [qc 2 1; qc 3 1]%Qc = Some s /\ map (sp_value s [qc 1 2; qc 1 3]) [0; 1] = [1; 1]%Qc) /\
  (exists s, from_bounds 10 [qc (-1) 1; 0]%Qc [1; qc 4 1]%Qc [0; 1]%Qc [qc 2 1; 0]%Qc = Some s /\
     map (sp_value s [0; 1]%Qc) [0; 1] = [1; qc 3 4]%Qc).
Proof. exact C63_example_holds. Qed.

(** Parametric bounds below -1 are rejected. *)
Theorem C63_low_refuted :
  exists plo phi lo hi, (plo < phi)%Qc /\ (lo < hi)%Qc /\ from_bounds 10 [plo] [phi] [lo] [hi] = None.
Proof. exact C63_low_refuted_holds. Qed.
Print Assumptions C63_low_refuted.

(** C64: arcs lie on the circle; at the i-th knot the start point is turned by
    i/n of the angle.  Missing for the full statement: angles within the
    tolerance below pi. *)
Theorem C64_arc_partial :
  forall O limit radius angle asked start degree, constants O -> square O -> 2 <= limit ->
  let rad := radians O (Some angle) degree in
  let rads := radians O (Some start) degree in
  let x0 := (radius * o_cos O rads)%Qc in
  let y0 := (radius * o_sin O rads)%Qc in
  exists n, enough_spans O rad (Some asked) n /\
  ((exists r, arc O limit radius angle asked start degree = Some r) <->
     n = 1 \/ (o_pi O <= qabs rad)%Qc \/ (1 < asked)%Z) /\
  let a := (rad / (inj 2 * inj n))%Qc in
  (circular O a -> rotates O None a ->
   forall r, arc O limit radius angle asked start degree = Some r ->
     (forall t, sp_domain r [t] <-> (0 <= t)%Qc /\ (t <= inj n)%Qc) /\
     (forall m, m <= n ->
        let c := o_cos O (inj m * rad / inj n)%Qc in
        let s := o_sin O (inj m * rad / inj n)%Qc in
        sp_value r [inj m] 0 = (c * x0 - s * y0)%Qc /\ sp_value r [inj m] 1 = (s * x0 + c * y0)%Qc) /\
     (forall t, (0 <= t)%Qc -> (t <= inj n)%Qc ->
        (sp_value r [t] 0 * sp_value r [t] 0 + sp_value r [t] 1 * sp_value r [t] 1)%Qc = (x0 * x0 + y0 * y0)%Qc)).
Proof. exact C64_arc_partial_holds. Qed.
Print Assumptions C64_arc_partial.

(** An arc of radius 5 and angle 1, from the angle 1/2. *)
Example C64_example :
  constants turn_oracles /\ square turn_oracles /\
  circular turn_oracles (1 / (inj 2 * inj 1))%Qc /\ rotates turn_oracles None (1 / (inj 2 * inj 1))%Qc /\
  exists r, arc turn_oracles 10 (qc 5 1) 1 (-1) (qc 1 2) false = Some r /\
    map (sp_value r [0%Qc]) [0; 1] = [qc 3 1; qc 4 1] /\ map (sp_value r [qc 1 2]) [0; 1] = [qc (-7) 5; qc 24 5] /\
    map (sp_value r [1%Qc]) [0; 1] = [qc (-117) 25; qc 44 25].
Proof. exact C64_example_holds. Qed.

(** An angle less than pi, but by less than the tolerance: the arc is built as
    Bezier curve and revolved refuses the two segments it wants. *)
Theorem C64_gap_refuted :
  exists angle, (0 < angle)%Qc /\ (angle < o_pi turn_oracles)%Qc /\
    arc turn_oracles 10 1 angle (-1) 0 false = None.
Proof. exact C64_gap_refuted_holds. Qed.
Print Assumptions C64_gap_refuted.
