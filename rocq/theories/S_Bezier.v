(** Specification vocabulary for splitting. *)
From Coq Require Import List Arith ZArith QArith Qcanon.
From Verif Require Import Base BaseQc S_Grid S_Spline S_Value.
Import ListNotations.
Local Open Scope nat_scope.

(** Bezier or rational Bezier. *)
Definition is_bezier (s : spline) : Prop :=
  Forall (fun a => exists p, a = BezierAxis p) (sp_axes s).

(** The parameter that lies in the interval [a, b] of axis [k] where [us] lies
    in [0, 1]. *)
Definition rescaled (k : nat) (a b : Qc) (us : list Qc) : list Qc :=
  set_nth us k (a + (b - a) * nth k us 0)%Qc.

(** [piece] is the part of [s] between [a] and [b] on axis [k], reparametrized
    to the unit interval. *)
Definition is_part (k : nat) (a b : Qc) (s piece : spline) : Prop :=
  sp_axes piece = sp_axes s /\
  forall us d, sp_domain piece us -> sp_value piece us d = sp_value s (rescaled k a b us) d.

(** What is assumed of splitting at one position: it keeps a class of Bezier
    splines and cuts the mapping in two. *)
Definition splits_values (k : nat) (ok : spline -> Prop)
    (split1 : spline -> Qc -> spline * spline) : Prop :=
  forall s x, ok s -> (0 <= x)%Qc -> (x <= 1)%Qc ->
    is_bezier s /\ ok (fst (split1 s x)) /\ ok (snd (split1 s x)) /\
    is_part k 0 x s (fst (split1 s x)) /\ is_part k x 1 s (snd (split1 s x)).

(** Consecutive pairs of a list. *)
Definition intervals (l : list Qc) : list (Qc * Qc) := combine l (tl l).

(** Splitting of Bezier control nets by de Casteljau's algorithm: along axis
    [k] the new control points are combinations, by rows of a matrix [M], of the
    old ones; rational nets in homogeneous coordinates. *)
Definition apply_axis (res : list nat) (k : nat) (M : nat -> nat -> Qc) (f : list nat -> Qc)
    (ix : list nat) : Qc :=
  qsum (map (fun j => M (nth k ix 0%nat) j * f (set_nth ix k j))%Qc (seq 0 (nth k res 0))).
Definition indices (res : list nat) : list (list nat) :=
  map (fun g => map (fun k => axis_position res g k) (seq 0 (length res)))
      (seq 0 (fold_right Nat.mul 1 res)).
Definition net_weight (s : spline) (ws : list Qc) (ix : list nat) : Qc :=
  nth (flat_id (sp_res s) ix) ws 0%Qc.
Definition combine_axis (k dim : nat) (M : nat -> nat -> Qc) (s : spline) : spline :=
  let res := sp_res s in
  let P := net res (sp_cps s) in
  match sp_weights s with
  | None =>
      Spl (sp_axes s)
        (map (fun ix => map (fun d => apply_axis res k M (P d) ix) (seq 0 dim)) (indices res)) None
  | Some ws =>
      let w' := apply_axis res k M (net_weight s ws) in
      Spl (sp_axes s)
        (map (fun ix => map (fun d =>
           apply_axis res k M (fun ix => net_weight s ws ix * P d ix)%Qc ix / w' ix)%Qc (seq 0 dim))
           (indices res))
        (Some (map w' (indices res)))
  end.
(** Rows of the left and right halves for degree [p]. *)
Definition left_rows (x : Qc) (i j : nat) : Qc := bernstein i j x.
Definition right_rows (p : nat) (x : Qc) (i j : nat) : Qc :=
  if i <=? j then bernstein (p - i) (j - i) x else 0%Qc.
Definition casteljau (k dim : nat) (s : spline) (x : Qc) : spline * spline :=
  let p := ax_degree (nth k (sp_axes s) (BezierAxis 0)) in
  (combine_axis k dim (left_rows x) s, combine_axis k dim (right_rows p x) s).

(** Bezier splines of one dimension, with positive weights if rational. *)
Definition bezier_net (k dim : nat) (s : spline) : Prop :=
  is_bezier s /\ sp_wf s /\ k < length (sp_axes s) /\
  Forall (fun P => length P = dim) (sp_cps s) /\
  match sp_weights s with None => True | Some ws => Forall (fun w => 0 < w)%Qc ws end.
