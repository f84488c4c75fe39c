(** Specification of integration over splines. *)
From Coq Require Import List Arith ZArith Bool QArith Qcanon Sorted Permutation.
From Verif Require Import Base BaseQc S_Grid S_Spline S_Value S_Knots S_Pieces S_Deriv M_Core M_Integrate.
Import ListNotations.
Local Open Scope list_scope.
Local Open Scope nat_scope.

(** leggauss: points inside (-1, 1), weights that sum to 2. *)
Definition gaussian (leg : nat -> list Qc * list Qc) : Prop :=
  forall n, 0 < n -> fst (leg n) <> [] /\ length (snd (leg n)) = length (fst (leg n)) /\
    Forall (fun x => (- (1) < x)%Qc /\ (x < 1)%Qc) (fst (leg n)) /\ qsum (snd (leg n)) = inj 2.
(** sqrt *)
Definition rooting (sqrt : Qc -> Qc) : Prop := sqrt 1%Qc = 1%Qc /\ forall h x, (0 <= h)%Qc -> sqrt (h * h * x)%Qc = (h * sqrt x)%Qc.
(** Splines without and with knot vectors. *)
Definition bezier_axes (s : spline) : Prop := Forall (fun a => exists p, a = BezierAxis p) (sp_axes s).
Definition knotted (s : spline) : Prop := Forall (fun a => match a with KnotAxis _ _ => True | _ => False end) (sp_axes s).
Definition uniform (s : spline) : Prop := Forall (fun p => length p = dim_of (sp_cps s)) (sp_cps s).
(** Knot insertion adds the new knots and keeps the values. *)
Definition inserting (ins : spline -> nat -> list Qc -> option spline) : Prop :=
  forall s k p kv ks, sp_wf s -> uniform s -> knotted s -> sp_weights s = None ->
  nth_error (sp_axes s) k = Some (KnotAxis p kv) -> 1 <= p -> ax_clamped (KnotAxis p kv) ->
  ks <> [] -> StronglySorted Qclt ks -> (forall x, In x ks -> (ax_lower (KnotAxis p kv) < x)%Qc /\ (x < ax_upper (KnotAxis p kv))%Qc /\ ~ In x kv) ->
  exists s' kv', ins s k ks = Some s' /\ Permutation kv' (kv ++ ks) /\ non_decreasing kv' /\
    sp_axes s' = firstn k (sp_axes s) ++ KnotAxis p kv' :: skipn (S k) (sp_axes s) /\
    sp_wf s' /\ uniform s' /\ sp_weights s' = None /\ dim_of (sp_cps s') = dim_of (sp_cps s) /\
    forall us d, sp_domain s us -> d < dim_of (sp_cps s) -> sp_value s' us d = sp_value s us d.
(** Nothing is required of a spline that consists of Bezier pieces. *)
Definition idle (required : spline -> spline) : Prop :=
  forall s um, bezier_form (sp_axes s) um -> required s = s.
Definition int_contract (O : int_oracles) : Prop :=
  gaussian (g_leggauss O) /\ rooting (g_sqrt O) /\ inserting (g_insert O) /\ idle (g_required O).

(** Axis with the distinct knots [us], clamped at both ends. *)
Definition axis_knots (a : paxis) (us : list Qc) : Prop :=
  StronglySorted Qclt us /\
  match a with
  | BezierAxis _ => us = [0; 1]%Qc
  | KnotAxis p kv => exists m, kv = expand_knots us m /\ length us = length m /\ 2 <= length m /\
      nth 0 m 0 = p + 1 /\ nth (length m - 1) m 0 = p + 1 /\ Forall (fun k => 0 < k) m
  end.

(** Elements: one interval per axis; all combinations. *)
Fixpoint elements (knots : list (list Qc)) : list (list (Qc * Qc)) :=
  match knots with
  | [] => [[]]
  | us :: knots => flat_map (fun iv => map (cons iv) (elements knots)) (combine us (tl us))
  end.
(** The point of an element that corresponds to [t] in the unit cube; the size
    of an element. *)
Definition point_of (e : list (Qc * Qc)) (t : list Qc) : list Qc :=
  map (fun x => (fst (fst x) + snd x * (snd (fst x) - fst (fst x)))%Qc) (combine e t).
Definition size_of (e : list (Qc * Qc)) : Qc := fold_right (fun iv acc => ((snd iv - fst iv) * acc)%Qc) 1%Qc e.

(** Quadrature of [F] over all elements: each element is mapped to the unit
    cube, the weights are scaled by its size. *)
Definition composite (quad : list (list Qc * Qc)) (knots : list (list Qc)) (F : list Qc -> Qc) : Qc :=
  qsum (map (fun e => (size_of e * qsum (map (fun tw => F (point_of e (fst tw)) * snd tw) quad))%Qc) (elements knots)).

(** Sum over all elements without their sizes. *)
Definition unscaled (quad : list (list Qc * Qc)) (knots : list (list Qc)) (F : list Qc -> Qc) : Qc :=
  qsum (map (fun e => qsum (map (fun tw => F (point_of e (fst tw)) * snd tw)%Qc quad)) (elements knots)).

(** Gauss rule of the unit interval; products of rules. *)
Definition unit_rule (leg : nat -> list Qc * list Qc) (o : nat) : list (Qc * Qc) :=
  map (fun xw => ((fst xw + 1) * qc 1 2, snd xw * qc 1 2)%Qc) (combine (fst (leg o)) (snd (leg o))).
Fixpoint product_rule (rules : list (list (Qc * Qc))) : list (list Qc * Qc) :=
  match rules with
  | [] => [([], 1%Qc)]
  | r :: rules => flat_map (fun xw => map (fun tw => (fst xw :: fst tw, snd xw * snd tw)%Qc) (product_rule rules)) r
  end.
(** Orders of the rules: as given, or such that degree * para_dim + 1 (+ 2 for
    rational splines) is integrated exactly. *)
Definition orders_of (s : spline) (orders : option (list Z)) (os : list nat) : Prop :=
  length os = length (sp_axes s) /\
  match orders with
  | Some zs => map Z.of_nat os = zs /\ Forall (fun o => 0 < o) os
  | None => Forall2 (fun a o => let e := ax_degree a * length (sp_axes s) + 1 + match sp_weights s with Some _ => 2 | None => 0 end in
                                e <= 2 * o - 1 <= e + 1 /\ 0 < o) (sp_axes s) os
  end.

(** [J d j]: derivative of coordinate [d] along axis [j] at [u]. *)
Definition jacobian (s : spline) (u : list Qc) (J : nat -> nat -> Qc) : Prop :=
  forall d j, d < dim_of (sp_cps s) -> j < length (sp_axes s) ->
    is_deriv (fun y => sp_value s (put j y u) d) (nth j u 0%Qc) (J d j).
(** Measure of a map of [n] parameters to [dim] coordinates with derivatives [J]. *)
Definition measure (sqrt : Qc -> Qc) (n dim : nat) (J : nat -> nat -> Qc) : Qc :=
  if dim =? n then det n J
  else sqrt (det n (fun i k => qsum (map (fun d => J d i * J d k)%Qc (seq 0 dim)))).
(** Derivatives at all points inside the elements. *)
Definition derivatives (s : spline) (J : list Qc -> nat -> nat -> Qc) : Prop :=
  forall u, Forall2 ax_inside (sp_axes s) u -> jacobian s u (J u).
Definition positive (s : spline) : Prop :=
  match sp_weights s with None => True | Some ws => Forall (fun w => (0 < w)%Qc) ws end.

(** The geometry is x = b + A u. *)
Definition affine (s : spline) (b : nat -> Qc) (a : nat -> nat -> Qc) : Prop :=
  forall us d, sp_domain s us -> d < dim_of (sp_cps s) ->
    sp_value s us d = (b d + qsum (map (fun j => a d j * nth j us 0) (seq 0 (length (sp_axes s)))))%Qc.

(** The spline after the knots for the Bezier patches were inserted. *)
Definition bezier_refinement (s s' : spline) (knots : list (list Qc)) : Prop :=
  sp_wf s' /\ (exists um, bezier_form (sp_axes s') um /\ map fst um = knots) /\
  dim_of (sp_cps s') = dim_of (sp_cps s) /\
  positive s' /\
  forall us d, sp_domain s us -> d < dim_of (sp_cps s) -> sp_value s' us d = sp_value s us d.
