(** Specification of tilings. *)
From Coq Require Import List Arith ZArith QArith Qcanon.
From Verif Require Import BaseQc S_Grid S_Spline S_Value S_Knots.
Import ListNotations.
Local Open Scope nat_scope.

(** Number of non-empty knot spans of an axis. *)
Definition n_spans (a : paxis) : nat :=
  match a with
  | BezierAxis _ => 1
  | KnotAxis p kv =>
      length (filter (fun i => qltb (kn kv i) (kn kv (i + 1))) (seq p (length kv - p - 1 - p)))
  end.

(** An axis whose spans can be divided into [t] pieces without any piece being
    narrower than the tolerance eps. *)
Definition divisible (eps : Qc) (a : paxis) (t : nat) : Prop :=
  match a with
  | BezierAxis _ => (eps * inj t <= 1)%Qc
  | KnotAxis p kv =>
      knot_vector p (length kv - p - 1) kv /\
      forall i, p <= i < length kv - p - 1 -> (kn kv i < kn kv (i + 1))%Qc ->
        (eps * inj t <= kn kv (i + 1) - kn kv i)%Qc
  end.

(** [a'] has the degree of [a], and its knots are those of [a] and those of [new]. *)
Definition with_new_knots (a a' : paxis) (new : list Qc) : Prop :=
  match a' with
  | BezierAxis _ => False
  | KnotAxis p' kv' =>
      p' = ax_degree a /\ knot_vector p' (length kv' - p' - 1) kv' /\
      Permutation.Permutation kv'
        (match a with BezierAxis p => repeat 0%Qc (p + 1) ++ repeat 1%Qc (p + 1) | KnotAxis _ kv => kv end ++ new)
  end.

(** Width of the pieces when n inner knots divide a span of width w evenly. *)
Definition piece_width (w : Qc) (n : nat) : Qc := (w / inj (n + 1))%Qc.

(** ns distributes inner knots over spans of the widths ws so that the widest
    piece is as narrow as possible with that many knots. *)
Definition most_even (ws : list Qc) (ns : list nat) : Prop :=
  length ns = length ws /\
  forall ms, length ms = length ws -> list_sum ms = list_sum ns ->
  forall j, j < length ws -> exists i, i < length ws /\
    (piece_width (nth j ws 0) (nth j ns 0%nat) <= piece_width (nth i ws 0) (nth i ms 0%nat))%Qc.

(** Even division of consecutive spans. *)
Fixpoint divided (us : list Qc) (ns : list nat) : list Qc :=
  match us, ns with
  | a :: (b :: _) as r, n :: ns => equidistant a b n ++ divided r ns
  | _, _ => []
  end.

(** Distinct knots of the domain, ascending. *)
Definition distinct_knots (a : paxis) (us : list Qc) : Prop :=
  Sorted.StronglySorted Qclt us /\
  match a with
  | BezierAxis _ => us = [0; 1]%Qc
  | KnotAxis p kv => forall x, In x us <-> exists i, p <= i <= length kv - p - 1 /\ x = kn kv i
  end.

(** Widths of consecutive spans. *)
Definition widths (us : list Qc) : list Qc :=
  map (fun i => (nth (S i) us 0 - nth i us 0)%Qc) (seq 0 (length us - 1)).

(** [a'] is [a] with every span divided into t equal pieces. *)
Definition tiled_per_span (a : paxis) (t : nat) (a' : paxis) : Prop :=
  exists us, distinct_knots a us /\ with_new_knots a a' (divided us (repeat (t - 1) (n_spans a))).
(** [a'] is [a] with t pieces in total, as evenly as possible. *)
Definition tiled_overall (a : paxis) (t : nat) (a' : paxis) : Prop :=
  exists us ns, distinct_knots a us /\ most_even (widths us) ns /\ list_sum ns = t - n_spans a /\
    with_new_knots a a' (divided us ns).
