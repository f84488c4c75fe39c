(** Model of Extractor.spline with a dictionary (splinepy/helpme/extract.py 743-752).

    A dictionary is the list of its items in order of insertion. *)
From Coq Require Import List Arith QArith Qcanon.
From Verif Require Import Base S_Value M_SubSpline.
Import ListNotations.
Local Open Scope list_scope.
Local Open Scope nat_scope.

(** sorted(items, key=lambda x: x[0]) *)
Fixpoint insert_item {A} (x : nat * A) (l : list (nat * A)) : list (nat * A) :=
  match l with
  | [] => [x]
  | y :: l' => if fst x <=? fst y then x :: l else y :: insert_item x l'
  end.
Definition sorted_items {A} (l : list (nat * A)) : list (nat * A) := fold_right insert_item [] l.

Definition sub_splines (limit : nat) (tol : Qc) (ins : spline -> nat -> Qc -> spline) (s : spline)
    (planes : list (nat * list Qc)) : option spline :=
  fold_left (fun o item => match o with Some c => sub_spline limit tol ins c (fst item) (snd item) | None => None end)
            (rev (sorted_items planes)) (Some s).
