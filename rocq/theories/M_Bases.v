(** Model of extract.bases (splinepy/helpme/extract.py 603-648) and of parametric_view with
    conform=True (splinepy/helpme/create.py 458-518).

    Oracles: [elev s k m], SplinepyElevateDegree applied [m] times; [ins s k x], one call of
    SplinepyInsertKnot.  The constructors of lines 489 and 495 get matching data and are taken to
    accept it.  show_options and spline_data are not modelled.  [None]: an exception, or writing
    outside of an array. *)
From Coq Require Import List Arith ZArith Bool QArith Qcanon.
From Verif Require Import Base BaseQc S_Value M_Core M_Bezier M_Create M_Elevate M_SubSpline.
Import ListNotations.
Local Open Scope list_scope.
Local Open Scope nat_scope.

Section Bases.
Variables (limit : nat) (elev : spline -> nat -> nat -> spline) (ins : spline -> nat -> Qc -> spline).

(** 498-503: [i] * dq is empty for dq <= 0 *)
Definition degree_query (s v : spline) : list Z :=
  concat (map (fun i => repeat (Z.of_nat i) (nth i (map ax_degree (sp_axes s)) 0 - nth i (map ax_degree (sp_axes v)) 0)) (seq 0 (length (sp_axes s)))).
(** 511-512: kv[n:-n] *)
Definition inner_query (a : paxis) : list Qc :=
  match a with
  | BezierAxis _ => []
  | KnotAxis p kv => firstn (length kv - (p + 1) - (p + 1)) (skipn (p + 1) kv)
  end.
Definition is_rational (s : spline) : bool := match sp_weights s with Some _ => true | None => false end.

(** 480-518 *)
Definition conform_view (s : spline) : option spline :=
  let lo := map ax_lower (sp_axes s) in
  let hi := map ax_upper (sp_axes s) in
  match from_bounds limit lo hi lo hi with
  | None => None
  | Some v =>
      let v := if is_rational s then Spl (sp_axes v) (sp_cps v) (Some (repeat 1%Qc (length (sp_cps v)))) else v in        (* 488-489 *)
      let v := if has_knot_vectors s then v
               else Spl (map (fun a => BezierAxis (ax_degree a)) (sp_axes v)) (sp_cps v) (sp_weights v) in                 (* 492-495 *)
      let elevated :=                                                                                                       (* 498-504 *)
        if existsb (fun pq => negb (fst pq =? snd pq)) (combine (map ax_degree (sp_axes s)) (map ax_degree (sp_axes v)))
        then match elevate_core elev v (degree_query s v) with Some (Elevated v) => Some v | _ => None end
        else Some v in
      let inserted :=                                                                                                       (* 507-514 *)
        if has_knot_vectors s
        then fold_left (fun v iq => match v with
                                    | None => None
                                    | Some v => match snd iq with [] => Some v | q => insert_knots ins v (fst iq) q end
                                    end)
               (combine (seq 0 (length (sp_axes s))) (map inner_query (sp_axes s))) elevated
        else elevated in
      match inserted, sp_weights s with                                                                                     (* 517-518 *)
      | Some v, Some ws => if length ws =? length (sp_cps v) then Some (Spl (sp_axes v) (sp_cps v) (Some ws)) else None
      | v, _ => v
      end
  end.

Definition set_last (x : Qc) (p : list Qc) : list Qc := removelast p ++ [x].
(** index of an array of [n] rows; [None] = IndexError *)
Definition row_index (n : nat) (i : Z) : option nat :=
  if ((0 <=? i) && (i <? Z.of_nat n))%Z then Some (Z.to_nat i)
  else if ((- Z.of_nat n <=? i) && (i <? 0))%Z then Some (Z.to_nat (i + Z.of_nat n))
  else None.

(** extract.py 603-648; ids=None is [seq 0 (number of control points)]. *)
Definition embed_one_more (s : spline) : option spline :=
  match embedded s (Z.of_nat (dim_of (sp_cps s) + 1)) with Some i => make limit s i | None => None end.
Definition bases (s : spline) (ids : option (list Z)) (view : bool) : option (list spline) :=
  let ids := match ids with Some l => l | None => map Z.of_nat (seq 0 (length (sp_cps s))) end in
  match (if view then match conform_view s with Some v => embed_one_more v | None => None end else embed_one_more s) with
  | None => None
  | Some b =>
      let template := map (set_last 0%Qc) (sp_cps b) in
      all_some (map (fun i => match row_index (length template) i with
                              | Some r => Some (Spl (sp_axes b) (set_nth template r (set_last 1%Qc (nth r template []))) (sp_weights b))
                              | None => None
                              end) ids)
  end.
End Bases.
