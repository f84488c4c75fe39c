(** Specification of parts of splines on several axes. *)
From Coq Require Import List Arith QArith Qcanon.
From Verif Require Import Base BaseQc S_Value S_SubSpline.
Import ListNotations.
Local Open Scope list_scope.
Local Open Scope nat_scope.

(** One value or the ends of an interval where the axis can be cut. *)
Definition item_ok (tol : Qc) (a : paxis) (it : list Qc) : Prop :=
  match it with
  | [x] => cuttable tol a x
  | [x0; x1] => cuttable tol a x0 /\ cuttable tol a x1 /\ (x0 + tol <= x1)%Qc
  | _ => False
  end.
Fixpoint lookup {A} (k : nat) (l : list (nat * A)) : option A :=
  match l with [] => None | (j, x) :: l => if j =? k then Some x else lookup k l end.
(** What happens to each axis. *)
Definition plan_of {A} (n : nat) (l : list (nat * A)) : list (option A) := map (fun k => lookup k l) (seq 0 n).
Definition is_value (o : option (list Qc)) : bool := match o with Some [_] => true | _ => false end.

(** Axes of the part. *)
Inductive parts : list paxis -> list (option (list Qc)) -> list paxis -> Prop :=
| parts_nil : parts [] [] []
| parts_kept a A P A' : parts A P A' -> parts (a :: A) (None :: P) (a :: A')
| parts_value a x A P A' : parts A P A' -> parts (a :: A) (Some [x] :: P) A'
| parts_bezier p x0 x1 A P A' : parts A P A' -> parts (BezierAxis p :: A) (Some [x0; x1] :: P) (BezierAxis p :: A')
| parts_knots p kv K x0 x1 A P A' : ax_clamped (KnotAxis p K) -> ax_lower (KnotAxis p K) = x0 -> ax_upper (KnotAxis p K) = x1 ->
    parts A P A' -> parts (KnotAxis p kv :: A) (Some [x0; x1] :: P) (KnotAxis p K :: A').
(** Parameter of the spline that belongs to parameter [us] of the part. *)
Fixpoint original (A : list paxis) (P : list (option (list Qc))) (us : list Qc) : list Qc :=
  match A, P with
  | a :: A, o :: P =>
      match o, us with
      | Some [x], _ => x :: original A P us
      | Some [x0; x1], u :: us => match a with BezierAxis _ => x0 + (x1 - x0) * u | KnotAxis _ _ => u end%Qc :: original A P us
      | _, u :: us => u :: original A P us
      | _, [] => []
      end
  | _, _ => []
  end.
(** The spline does not jump at the ends of intervals that [us] reaches. *)
Fixpoint no_jump (A : list paxis) (P : list (option (list Qc))) (us : list Qc) : Prop :=
  match A, P with
  | a :: A, o :: P =>
      match o, us with
      | Some [x], _ => no_jump A P us
      | Some [x0; x1], u :: us => match a with BezierAxis _ => True | KnotAxis _ _ => (u < x1)%Qc \/ continuous_at a x1 end /\ no_jump A P us
      | _, _ :: us => no_jump A P us
      | _, [] => True
      end
  | _, _ => True
  end.
