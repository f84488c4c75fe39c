(** Specification of rational basis functions and their derivatives. *)
From Coq Require Import List Arith ZArith QArith Qcanon.
From Verif Require Import Base BaseQc S_Grid S_Spline S_Value.
Import ListNotations.
Local Open Scope nat_scope.

(** All multi-orders below [a], component by component. *)
Fixpoint below (a : list nat) : list (list nat) :=
  match a with
  | [] => [[]]
  | n :: a => flat_map (fun i => map (cons i) (below a)) (seq 0 (n + 1))
  end.
Definition order_le (b a : list nat) : Prop := Forall2 le b a.
Definition order_sub (a b : list nat) : list nat := map (fun xy => fst xy - snd xy) (combine a b).
Definition order_binom (a b : list nat) : nat :=
  fold_right Nat.mul 1 (map (fun xy => binom (fst xy) (snd xy)) (combine a b)).

(** Derivatives [R a i] of the rational functions R_i = w_i N_i / W, where W is
    the weighted sum of the [n] functions: Leibniz' rule for W R_i = w_i N_i. *)
Definition weight_derivative (N : list nat -> nat -> Qc) (w : nat -> Qc) (n : nat) (b : list nat) : Qc :=
  qsum (map (fun i => w i * N b i)%Qc (seq 0 n)).
Definition quotient_rule (N : list nat -> nat -> Qc) (w : nat -> Qc) (n : nat) (order : list nat)
    (R : list nat -> nat -> Qc) : Prop :=
  forall a i, order_le a order -> i < n ->
    qsum (map (fun b => inj (order_binom a b) * weight_derivative N w n b * R (order_sub a b) i)%Qc (below a))
    = (w i * N a i)%Qc.
