(** Property theorems C79, C80, C81, C82: primitives. *)
From Coq Require Import List Arith ZArith Lia Bool QArith Qcanon.
From Verif Require Import Base BaseQc S_Spline P_Spline S_Value P_Value M_Core S_Core M_Files S_Files M_Bezier P_Bezier M_Elevate S_Knots S_Pieces
  W_Knots M_Create S_Create P_Revolve P_Shapes P_Create W_Create M_Primitives S_Primitives P_Round P_Primitives P_Cone W_Primitives.
Import ListNotations.
Local Open Scope list_scope.
Local Open Scope nat_scope.

(** C79: revolving a rational spline, with computed sines and cosines: at the m-th knot it is
    turned by 2m times the half angle of a segment, everywhere by some cosine and sine of
    squares adding up to nearly 1. *)
Theorem C79_revolution :
  forall eps O limit dim s axis center angle asked degree i, constants O -> small eps -> sound limit dim s -> sp_weights s <> None ->
  revolved O s axis center angle asked degree = Some i -> room limit (revolved_dim dim axis) s ->
  match axis with Some v => measures O v | None => True end ->
  let rad := radians O angle degree in
  let dim' := revolved_dim dim axis in
  let k := as_vector (direction O axis) in
  let from us e := (embedded_in dim (sp_value s us) e - origin center e)%Qc in
  exists n, enough_spans O rad asked n /\
  let a := (rad / (inj 2 * inj n))%Qc in
  (nearly_circular eps O a -> rotates O (direction O axis) a ->
   exists r, make limit s i = Some r /\ sound limit dim' r /\
     (forall us t, sp_domain r (us ++ [t]) <-> sp_domain s us /\ between 0 t (inj n)) /\
     (forall us m d, sp_domain s us -> m <= n -> d < dim' ->
        let (co, si) := turns (o_cos O a) (o_sin O a) (2 * m) in
        sp_value r (us ++ [inj m]) d = (origin center d + turned k co si (from us) d)%Qc) /\
     (forall us t, sp_domain s us -> between 0 t (inj n) ->
        exists al be, nearly_unit eps n al be /\
          forall d, d < dim' -> sp_value r (us ++ [t]) d = (origin center d + turned k al be (from us) d)%Qc)).
Proof. exact C79_revolution_holds. Qed.
Print Assumptions C79_revolution.

(** A rational segment turned about the origin, in four segments, cosine and sine 29/41. *)
Example C79_example :
  constants prim_oracles /\ small (qc 1 1681) /\ sound 10 2 nurbs_line /\ room 10 2 nurbs_line /\
  nearly_circular (qc 1 1681) prim_oracles (inj 2 * qc 22 7 / (inj 2 * inj 4))%Qc /\ rotates prim_oracles None (inj 2 * qc 22 7 / (inj 2 * inj 4))%Qc /\
  exists i r, revolved prim_oracles nurbs_line None None None (Some 4%Z) true = Some i /\ make 10 nurbs_line i = Some r /\
    map (sp_value r [0; inj 1]%Qc) [0; 1] = [0; qc 1682 1681]%Qc.
Proof. exact C79_example_holds. Qed.

(** C80: disks and rings. *)
Theorem C80_disk :
  forall eps O limit ro inner angle asked degree, constants O -> small eps -> 2 <= limit ->
  let rad := radians O (Some angle) degree in
  let R u := (inner_of inner + u * (ro - inner_of inner))%Qc in
  exists n, enough_spans O rad (Some asked) n /\
  let a := (rad / (inj 2 * inj n))%Qc in
  (nearly_circular eps O a -> rotates O None a ->
   exists r, disk O limit ro inner angle asked degree = Some r /\ sound limit 2 r /\
     (forall us, sp_domain r us <-> exists u t, us = [u; t] /\ between 0 u 1 /\ between 0 t (inj n)) /\
     (forall u m, between 0 u 1 -> m <= n ->
        let (c, s) := turns (o_cos O a) (o_sin O a) (2 * m) in
        map (sp_value r [u; inj m]) [0; 1] = [c * R u; s * R u]%Qc) /\
     (forall u t, between 0 u 1 -> between 0 t (inj n) ->
        exists al be, nearly_unit eps n al be /\ map (sp_value r [u; t]) [0; 1] = [al * R u; be * R u]%Qc)).
Proof. exact C80_disk_holds. Qed.
Print Assumptions C80_disk.

(** C80: balls and shells, about the x axis. *)
Theorem C80_sphere :
  forall eps O limit ro inner angle asked degree, constants O -> small eps -> 3 <= limit -> o_norm O ex = 1%Qc -> (o_tolerance O < 1)%Qc ->
  let half := o_pi O in
  let rad := radians O (Some angle) degree in
  let R u := (inner_of inner + u * (ro - inner_of inner))%Qc in
  exists n n', enough_spans O half (Some 4%Z) n /\ enough_spans O rad (Some asked) n' /\
  let a := (half / (inj 2 * inj n))%Qc in
  let b := (rad / (inj 2 * inj n'))%Qc in
  (nearly_circular eps O a -> rotates O None a -> nearly_circular eps O b -> rotates O (Some ex) b ->
   exists r, sphere O limit ro inner angle asked degree = Some r /\ sound limit 3 r /\
     (forall us, sp_domain r us <-> exists u v t, us = [u; v; t] /\ between 0 u 1 /\ between 0 v (inj n) /\ between 0 t (inj n')) /\
     (forall u m m', between 0 u 1 -> m <= n -> m' <= n' ->
        let (c, s) := turns (o_cos O a) (o_sin O a) (2 * m) in
        let (c', s') := turns (o_cos O b) (o_sin O b) (2 * m') in
        map (sp_value r [u; inj m; inj m']) [0; 1; 2] = [c * R u; c' * (s * R u); s' * (s * R u)]%Qc) /\
     (forall u v t, between 0 u 1 -> between 0 v (inj n) -> between 0 t (inj n') ->
        exists al be ga de, nearly_unit eps n al be /\ nearly_unit eps n' ga de /\
          map (sp_value r [u; v; t]) [0; 1; 2] = [al * R u; ga * (be * R u); de * (be * R u)]%Qc)).
Proof. exact C80_sphere_holds. Qed.
Print Assumptions C80_sphere.

(** C80: rings and sectors turned about the x axis.  Missing for the full statement: angles in
    degrees given for one of the two only. *)
Theorem C80_torus_partial :
  forall eps O limit w Rt ro inner ta sa sn tn degree, constants O -> small eps -> 3 <= limit -> o_norm O ex = 1%Qc -> (o_tolerance O < 1)%Qc ->
  sa <> None \/ inner <> None -> (degree = true -> ta = None <-> sa = None) ->
  let sect := radians O sa degree in
  let rad := radians O ta degree in
  let R u := (inner_of inner + u * (ro - inner_of inner))%Qc in
  exists n n', enough_spans O sect (Some sn) n /\ enough_spans O rad (Some tn) n' /\
  let a := (sect / (inj 2 * inj n))%Qc in
  let b := (rad / (inj 2 * inj n'))%Qc in
  (nearly_circular eps O a -> rotates O None a -> nearly_circular eps O b -> rotates O (Some ex) b ->
   exists r, torus O limit w Rt ro inner ta sa sn tn degree = Some r /\ sound limit 3 r /\
     (forall us, sp_domain r us <-> exists u v t, us = [u; v; t] /\ between 0 u 1 /\ between 0 v (inj n) /\ between 0 t (inj n')) /\
     (forall u m m', between 0 u 1 -> m <= n -> m' <= n' ->
        let (c, s) := turns (o_cos O a) (o_sin O a) (2 * m) in
        let (c', s') := turns (o_cos O b) (o_sin O b) (2 * m') in
        map (sp_value r [u; inj m; inj m']) [0; 1; 2] = [c * R u; c' * (Rt + s * R u); s' * (Rt + s * R u)]%Qc) /\
     (forall u v t, between 0 u 1 -> between 0 v (inj n) -> between 0 t (inj n') ->
        exists al be ga de, nearly_unit eps n al be /\ nearly_unit eps n' ga de /\
          map (sp_value r [u; v; t]) [0; 1; 2] = [al * R u; ga * (Rt + be * R u); de * (Rt + be * R u)]%Qc)).
Proof. exact C80_torus_partial_holds. Qed.
Print Assumptions C80_torus_partial.

(** C80: full sections, at least half a turn.  The section is within ro / sqrt 2 of its center. *)
Theorem C80_full_torus_partial :
  forall eps O limit w Rt ro ta sn tn degree, constants O -> small eps -> 3 <= limit -> o_norm O ex = 1%Qc -> (o_tolerance O < 1)%Qc ->
  (0 < w)%Qc -> (qabs ((1 + 1) * (w * w) - 1) <= eps)%Qc ->
  (degree = true -> ta = None) -> (o_pi O <= qabs (radians O ta degree))%Qc ->
  let rad := radians O ta degree in
  exists n', enough_spans O rad (Some tn) n' /\
  let b := (rad / (inj 2 * inj n'))%Qc in
  (nearly_circular eps O b -> rotates O (Some ex) b ->
   exists r, torus O limit w Rt ro None ta None sn tn degree = Some r /\ sound limit 3 r /\
     (forall u v t, sp_domain r [u; v; t] <-> between 0 u 1 /\ between 0 v 1 /\ between 0 t (inj n')) /\
     (forall u v, between 0 u 1 -> between 0 v 1 ->
        exists x y, (x * x + y * y <= ro * ro / inj 2 * (1 + eps))%Qc /\
          (u = 0 \/ u = 1 \/ v = 0 \/ v = 1 -> ro * ro / inj 2 * (1 - eps) <= x * x + y * y)%Qc /\
          (forall m, m <= n' -> let (c, s) := turns (o_cos O b) (o_sin O b) (2 * m) in
             map (sp_value r [u; v; inj m]) [0; 1; 2] = [x; c * (Rt + y); s * (Rt + y)]%Qc) /\
          forall t, between 0 t (inj n') ->
            exists ga de, nearly_unit eps n' ga de /\ map (sp_value r [u; v; t]) [0; 1; 2] = [x; ga * (Rt + y); de * (Rt + y)]%Qc)).
Proof. exact C80_full_torus_partial_holds. Qed.
Print Assumptions C80_full_torus_partial.

(** A ring turned once around: hypotheses and some points. *)
Example C80_example :
  constants prim_oracles /\ small (qc 1 1681) /\ o_norm prim_oracles ex = 1%Qc /\ (o_tolerance prim_oracles < 1)%Qc /\
  (let a := (radians prim_oracles None true / (inj 2 * inj 4))%Qc in nearly_circular (qc 1 1681) prim_oracles a /\ rotates prim_oracles None a /\ rotates prim_oracles (Some ex) a) /\
  (let a := (o_pi prim_oracles / (inj 2 * inj 4))%Qc in nearly_circular (qc 1 1681) prim_oracles a) /\
  (qabs ((1 + 1) * (qc 29 41 * qc 29 41) - 1) <= qc 1 1681)%Qc /\
  exists r, torus prim_oracles 10 (qc 29 41) (inj 3) 1 (Some (qc 1 2)) None None 4 4 true = Some r /\
    map (sp_value r [0; 0; 0]%Qc) [0; 1; 2] = [qc 1 2; inj 3; 0]%Qc /\
    map (sp_value r [1; inj 1; 0]%Qc) [0; 1; 2] = [0; qc 6725 1681; 0]%Qc.
Proof. exact C80_example_holds. Qed.

(** Refuted: with one of the two angles given in degrees, torus takes its number as radians. *)
Theorem C80_degree_refuted :
  (forall O limit w Rt ro inner t s sn tn,
     torus O limit w Rt ro inner (Some t) None sn tn true = torus O limit w Rt ro inner (Some t) None sn tn false /\
     torus O limit w Rt ro inner None (Some s) sn tn true = torus O limit w Rt ro inner None (Some s) sn tn false) /\
  exists O t r r', constants O /\
    torus O 10 (qc 29 41) (inj 3) 1 (Some (qc 1 2)) (Some t) None 4 1 true = Some r /\
    torus O 10 (qc 29 41) (inj 3) 1 (Some (qc 1 2)) (Some (radians O (Some t) true)) None 4 1 false = Some r' /\
    length (sp_cps r) <> length (sp_cps r').
Proof. exact C80_degree_refuted_holds. Qed.
Print Assumptions C80_degree_refuted.

(** Refuted: less than half a turn of a full section raises, with the default of four knot spans. *)
Theorem C80_part_refuted :
  forall O limit w Rt ro t sn tn degree, constants O -> 2 <= limit -> (0 < w)%Qc -> (qabs t < o_pi O)%Qc -> (1 < tn)%Z ->
  torus O limit w Rt ro None (Some t) None sn tn degree = None.
Proof. exact C80_part_refuted_holds. Qed.
Print Assumptions C80_part_refuted.

(** C81: the disk of one patch: boundary on the circle, the rest within. *)
Theorem C81_surface_circle :
  forall eps limit w R, small eps -> 2 <= limit -> (0 < w)%Qc -> (qabs ((1 + 1) * (w * w) - 1) <= eps)%Qc ->
  exists r, surface_circle limit w R = Some r /\ sound limit 2 r /\
    (forall u v, sp_domain r [u; v] <-> between 0 u 1 /\ between 0 v 1) /\
    forall u v, between 0 u 1 -> between 0 v 1 ->
      let x := sp_value r [u; v] 0 in
      let y := sp_value r [u; v] 1 in
      (x * x + y * y <= (1 + eps) * (1 + eps) * (R * R))%Qc /\
      (u = 0 \/ u = 1 \/ v = 0 \/ v = 1 -> (1 - eps) * (1 - eps) * (R * R) <= x * x + y * y)%Qc.
Proof. exact C81_surface_circle_holds. Qed.
Print Assumptions C81_surface_circle.

(** Radius 41, w = 29/41. *)
Example C81_example :
  small (qc 1 1681) /\ (qabs ((1 + 1) * (qc 29 41 * qc 29 41) - 1) <= qc 1 1681)%Qc /\
  exists r, surface_circle 10 (qc 29 41) (inj 41) = Some r /\
    map (sp_value r [0; 0]%Qc) [0; 1] = [- inj 29; - inj 29]%Qc /\ map (sp_value r [1; qc 1 2]%Qc) [0; 1] = [qc 2871 70; 0]%Qc /\
    map (sp_value r [qc 1 2; qc 1 2]%Qc) [0; 1] = [0; 0]%Qc.
Proof. exact C81_example_holds. Qed.

(** Refuted: plate returns a disk of radius r / sqrt 2 for the radius r. *)
Theorem C81_plate_refuted :
  forall eps limit w R, small eps -> 2 <= limit -> (0 < w)%Qc -> (qabs ((1 + 1) * (w * w) - 1) <= eps)%Qc ->
  exists r, plate limit w R = Some r /\ sound limit 2 r /\
    forall u v, between 0 u 1 -> between 0 v 1 ->
      let x := sp_value r [u; v] 0 in
      let y := sp_value r [u; v] 1 in
      (x * x + y * y <= R * R / inj 2 * (1 + eps))%Qc /\
      (u = 0 \/ u = 1 \/ v = 0 \/ v = 1 -> R * R / inj 2 * (1 - eps) <= x * x + y * y)%Qc.
Proof. exact C81_plate_refuted_holds. Qed.
Print Assumptions C81_plate_refuted.

(** C82: volumetric cones. *)
Theorem C82_cone_partial :
  forall eps O limit ro h inner angle degree, constants O -> small eps -> 3 <= limit -> tall h ->
  let rad := radians O (Some angle) degree in
  let R u := (inner_of inner + u * (ro - inner_of inner))%Qc in
  exists n, enough_spans O rad (Some 4%Z) n /\
  let a := (rad / (inj 2 * inj n))%Qc in
  (nearly_circular eps O a -> rotates O None a ->
   exists r, cone O limit ro h inner true angle degree = Some r /\
    (forall u v t, sp_domain r [u; v; t] <-> between 0 u 1 /\ between 0 v (inj n) /\ between 0 t 1) /\
    (forall u m t, between 0 u 1 -> m <= n -> between 0 t 1 ->
       let (c, s) := turns (o_cos O a) (o_sin O a) (2 * m) in
       map (sp_value r [u; inj m; t]) [0; 1; 2] = [(1 - t) * (c * R u); (1 - t) * (s * R u); t * h]%Qc) /\
    (forall u v t, between 0 u 1 -> between 0 v (inj n) -> between 0 t 1 ->
       exists al be, nearly_unit eps n al be /\
         map (sp_value r [u; v; t]) [0; 1; 2] = [(1 - t) * (al * R u); (1 - t) * (be * R u); t * h]%Qc)).
Proof. exact C82_cone_partial_holds. Qed.
Print Assumptions C82_cone_partial.

(** A cone of radius 1 and height 2, and its points at the base and half way up. *)
Example C82_example :
  tall (inj 2) /\
  exists r, cone prim_oracles 10 1 (inj 2) None true (inj 360) true = Some r /\
    map (sp_value r [1; 0; 0]%Qc) [0; 1; 2] = [1; 0; 0]%Qc /\ map (sp_value r [1; 0; qc 1 2]%Qc) [0; 1; 2] = [qc 1 2; 0; 1]%Qc.
Proof. exact C82_example_holds. Qed.

(** C82: cones over a circle: the segments from the circle to the apex. *)
Theorem C82_cone_surface_partial :
  forall eps O limit radius h inner angle degree, constants O -> square O -> small eps -> 2 <= limit -> tall h ->
  let rad := radians O (Some (inj 360)) true in
  let x0 := (radius * o_cos O 0)%Qc in
  let y0 := (radius * o_sin O 0)%Qc in
  exists n, enough_spans O rad (Some 3%Z) n /\
  let a := (rad / (inj 2 * inj n))%Qc in
  (nearly_circular eps O a -> rotates O None a ->
   exists r, cone O limit radius h inner false angle degree = Some r /\
    (forall v t, sp_domain r [v; t] <-> between 0 v (inj n) /\ between 0 t 1) /\
    (forall m t, m <= n -> between 0 t 1 ->
       let (c, s) := turns (o_cos O a) (o_sin O a) (2 * m) in
       map (sp_value r [inj m; t]) [0; 1; 2] = [(1 - t) * (c * x0 - s * y0); (1 - t) * (s * x0 + c * y0); t * h]%Qc) /\
    (forall v t, between 0 v (inj n) -> between 0 t 1 ->
       exists al be, nearly_unit eps n al be /\
         map (sp_value r [v; t]) [0; 1; 2] = [(1 - t) * (al * x0 - be * y0); (1 - t) * (be * x0 + al * y0); t * h]%Qc)).
Proof. exact cone_surface. Qed.
Print Assumptions C82_cone_surface_partial.

(** Radius 1 and height 2 again: the first point of the circle, half way up from it, and the point at the next knot. *)
Example C82_surface_example :
  constants cone_oracles /\ square cone_oracles /\ small (qc 1 900) /\ tall (inj 2) /\
  (let a := (radians cone_oracles (Some (inj 360)) true / (inj 2 * inj 3))%Qc in nearly_circular (qc 1 900) cone_oracles a /\ rotates cone_oracles None a) /\
  exists r, cone cone_oracles 10 1 (inj 2) None false (inj 360) true = Some r /\
    map (sp_value r [0; 0]%Qc) [0; 1; 2] = [1; 0; 0]%Qc /\ map (sp_value r [0; qc 1 2]%Qc) [0; 1; 2] = [qc 1 2; 0; 1]%Qc /\
    map (sp_value r [1; 0]%Qc) [0; 1; 2] = [- qc 451 900; qc 13 15; 0]%Qc.
Proof. exact C82_surface_example_holds. Qed.

(** Refuted: for heights np.isclose takes for 0 the ground collapses too. *)
Theorem C82_flat_refuted :
  exists O h r, constants O /\ (0 < h)%Qc /\ cone O 10 1 h None true (inj 360) true = Some r /\ Forall (fun p => p = [0%Qc; 0%Qc; h]) (sp_cps r).
Proof. exact C82_flat_refuted_holds. Qed.
Print Assumptions C82_flat_refuted.

(** C82: pyramids. *)
Theorem C82_pyramid :
  forall limit w l h, 3 <= limit ->
  exists r, pyramid limit w l h = Some r /\ sp_axes r = repeat (BezierAxis 1) 3 /\ Forall (fun p => length p = 3) (sp_cps r) /\
    forall u v t, between 0 u 1 -> between 0 v 1 -> between 0 t 1 ->
      map (sp_value r [u; v; t]) [0; 1; 2] = [(1 - t) * (u * w) + t * (w / inj 2); (1 - t) * (v * l) + t * (l / inj 2); t * h]%Qc.
Proof. exact C82_pyramid_holds. Qed.
Print Assumptions C82_pyramid.

(** 2 by 4, height 3: the apex and a point half way up. *)
Example C82_pyramid_example :
  exists r, pyramid 10 (inj 2) (inj 4) (inj 3) = Some r /\
    map (sp_value r [0; 1; 1]%Qc) [0; 1; 2] = [1; inj 2; inj 3]%Qc /\ map (sp_value r [1; 0; qc 1 2]%Qc) [0; 1; 2] = [qc 3 2; 1; qc 3 2]%Qc.
Proof. exact C82_pyramid_example_holds. Qed.