(** Specification vocabulary for knot insertion. *)
From Coq Require Import List Arith QArith Qcanon.
From Verif Require Import BaseQc S_Spline.
Import ListNotations.
Local Open Scope Qc_scope.

(** Every x of a and y of b are equal or at least tol apart. *)
Definition separated (tol : Qc) (a b : list Qc) : Prop :=
  forall x y, In x a -> In y b -> x = y \/ tol <= qabs (x - y).

(** Input for which inserting [ks] into the knot vector [old] of degree p with
    n basis functions is expected to work: clamped at the lower end, the last
    basis function does not vanish, knots not confused by the tolerance, new
    knots strictly inside the bounds. *)
Record insertable (tol : Qc) (p n : nat) (old ks : list Qc) : Prop := {
  ins_degree : (1 <= p)%nat;
  ins_kv : knot_vector p n old;
  ins_left : kn old 0 = kn old p;
  ins_right : kn old (n - 1) < kn old n;
  ins_tol : 0 < tol;
  ins_sep : separated tol old (old ++ ks);
  ins_inside : forall x, In x ks -> kn old p < x /\ x < kn old n }.

(** A sparse n_rows x n_cols matrix in coordinate form whose rows are convex
    combinations: entries inside the shape, non-negative, rows summing to 1. *)
Definition convex_rows (entries : list (nat * nat * Qc)) (n_rows n_cols : nat) : Prop :=
  (forall r c v, In (r, c, v) entries -> (r < n_rows)%nat /\ (c < n_cols)%nat /\ 0 <= v) /\
  (forall r, (r < n_rows)%nat ->
     qsum (map (fun e => snd e) (filter (fun e => Nat.eqb (fst (fst e)) r) entries)) = 1).
