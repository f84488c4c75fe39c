(** Model of the dense linear solver and of clipping
    (/repo/include/splinepy/utils/arrays.hpp, lines 423-434, 513-577 and 674-818). *)
From Coq Require Import List Arith ZArith QArith Qcanon.
From Verif Require Import Base BaseQc.
Import ListNotations.
Local Open Scope nat_scope.

(** ** Matrix::Solve *)

(** The solver works in place on the array, the right-hand side and the row
    order; entries are addressed by (row, column).  arrays.hpp 682-687. *)
Record lin := mkLin { l_a : nat -> nat -> Qc; l_b : nat -> Qc; l_ord : list nat }.

(** row_order_[j] *)
Definition row (ord : list nat) (j : nat) : nat := nth j ord 0.

(** SwapRow, arrays.hpp 701-703 (std::swap of two entries of the row order). *)
Definition swap_row (ord : list nat) (i j : nat) : list nat :=
  set_nth (set_nth ord i (row ord j)) j (row ord i).

(** The search for the largest entry of column [i] at or below row [i],
    arrays.hpp 736-751; only a strictly larger value replaces the current one. *)
Definition pivot_row (a : nat -> nat -> Qc) (ord : list nat) (len i : nat) : nat :=
  snd (fold_left
         (fun (cur : Qc * nat) j =>
            let m := qabs (a (row ord j) i) in
            if qltb (fst cur) m then (m, j) else cur)
         (seq (i + 1) (len - (i + 1)))
         (qabs (a (row ord i) i), i)).

(** One pass of the reduction loop over rows, arrays.hpp 762-782: subtracts a
    multiple of the pivot row from row [j], touching the columns above [i] only
    and writing a literal zero into column [i]. *)
Definition reduce_row (len i : nat) (aii : Qc) (s : lin) (j : nat) : lin :=
  let ir := row (l_ord s) i in
  let jr := row (l_ord s) j in
  let f := (l_a s jr i / aii)%Qc in
  mkLin
    (fun r k => if r =? jr then
                  if k =? i then 0%Qc
                  else if (i <? k) && (k <? len) then (l_a s r k - l_a s ir k * f)%Qc
                  else l_a s r k
                else l_a s r k)
    (fun r => if r =? jr then (l_b s r - l_b s ir * f)%Qc else l_b s r)
    (l_ord s).

(** One pass of the outer loop, arrays.hpp 724-784.  [i_r] is a reference into
    the row order, so after the swap it denotes the pivot row.  A zero pivot with
    rows left below means dividing by zero: [None]. *)
Definition forward_step (len : nat) (s : lin) (i : nat) : option lin :=
  let m := pivot_row (l_a s) (l_ord s) len i in
  let ord := if m =? i then l_ord s else swap_row (l_ord s) m i in
  let s := mkLin (l_a s) (l_b s) ord in
  let aii := l_a s (row ord i) i in
  if qeqb aii 0 && (i + 1 <? len) then None
  else Some (fold_left (reduce_row len i aii) (seq (i + 1) (len - (i + 1))) s).

Definition forward (len : nat) (s : lin) : option lin :=
  fold_left (fun o i => match o with None => None | Some s => forward_step len s i end)
    (seq 0 len) (Some s).

(** One pass of the back substitution, arrays.hpp 787-801; [xs] is x[i+1..]. *)
Definition back_step (len : nat) (s : lin) (o : option (list Qc)) (i : nat) : option (list Qc) :=
  match o with
  | None => None
  | Some xs =>
      let ir := row (l_ord s) i in
      let sum := qsum (map (fun j => l_a s ir j * nth (j - (i + 1)) xs 0)%Qc
                         (seq (i + 1) (len - (i + 1)))) in
      if qeqb (l_a s ir i) 0 then None
      else Some (((l_b s ir - sum) / l_a s ir i)%Qc :: xs)
  end.

Definition back (len : nat) (s : lin) : option (list Qc) :=
  fold_left (back_step len s) (rev (seq 0 len)) (Some []).

(** Matrix::Solve, arrays.hpp 707-801, on an array given by its rows, with the
    row order found in the object (iota after construction and after
    ResetRowOrder, 697-699; whatever the last call left otherwise).  [None] is a
    division by zero.  The residual test of debug builds (803-817) is not part of
    the model. *)
Definition solve (a : list (list Qc)) (ord : list nat) (b : list Qc) : option (list Qc) :=
  let len := length a in
  match forward len (mkLin (fun r k => nth k (nth r a []) 0%Qc) (fun r => nth r b 0%Qc) ord) with
  | None => None
  | Some s => back len s
  end.

(** ** Clipping *)

(** A double for the purpose of comparisons: a number, an infinity or NaN; every
    comparison with NaN is false. *)
Inductive dbl := Num (q : Qc) | PInf | NInf | NaN.

Definition dlt (x y : dbl) : bool :=
  match x, y with
  | NaN, _ | _, NaN => false
  | Num a, Num b => qltb a b
  | PInf, _ | _, NInf => false
  | _, _ => true
  end.

(** Sums: NaN is absorbing and opposite infinities give NaN. *)
Definition dadd (x y : dbl) : dbl :=
  match x, y with
  | NaN, _ | _, NaN | PInf, NInf | NInf, PInf => NaN
  | PInf, _ | _, PInf => PInf
  | NInf, _ | _, NInf => NInf
  | Num a, Num b => Num (a + b)%Qc
  end.

Definition dneg (x : dbl) : dbl :=
  match x with Num a => Num (- a)%Qc | PInf => NInf | NInf => PInf | NaN => NaN end.
Definition dsub (x y : dbl) : dbl := dadd x (dneg y).

(** Products: zero times infinity is NaN. *)
Definition dsign (x : dbl) : Z :=
  match x with
  | Num a => if qeqb a 0 then 0%Z else if qltb 0 a then 1%Z else (-1)%Z
  | PInf => 1%Z
  | NInf => (-1)%Z
  | NaN => 0%Z
  end.
Definition dmul (x y : dbl) : dbl :=
  match x, y with
  | NaN, _ | _, NaN => NaN
  | Num a, Num b => Num (a * b)%Qc
  | _, _ => match (dsign x * dsign y)%Z with
            | Z0 => NaN | Zpos _ => PInf | Zneg _ => NInf
            end
  end.

(** Array::Clip, loop body, arrays.hpp 530-550: the new value and the flag. *)
Definition clip1 (lb ub x : dbl) : dbl * Z :=
  if dlt ub x then (ub, 1%Z)
  else if dlt x lb then (lb, (-1)%Z)
  else (x, 0%Z).

(** Array::Clip, arrays.hpp 519-551, on arrays of equal size (the asserts). *)
Fixpoint clip (lbs ubs xs : list dbl) : list (dbl * Z) :=
  match lbs, ubs, xs with
  | lb :: lbs, ub :: ubs, x :: xs => clip1 lb ub x :: clip lbs ubs xs
  | _, _, _ => []
  end.

(** Array::Add, arrays.hpp 423-434. *)
Definition add_arrays (xs ys : list dbl) : list dbl :=
  map (fun p => dadd (fst p) (snd p)) (combine xs ys).

(** Proximity::UpdateAndClip, proximity.cpp 226-229. *)
Definition update_and_clip (lbs ubs guess delta : list dbl) : list (dbl * Z) :=
  clip lbs ubs (add_arrays guess delta).

(** Array::NonZeros, arrays.hpp 569-577: the loop tests the counter [n] instead
    of the entry. *)
Definition non_zeros (xs : list Z) : nat :=
  fold_left (fun n (_ : Z) => if n =? 0 then n else n + 1) xs 0.
