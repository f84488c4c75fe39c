(** Minimal model of the numpy / python indexing operations used by splinepy
    (external library behaviour, part of the trusted base): n-dimensional
    arrays as shape + access function, reshape, transpose, ravel, basic
    indexing, and python's slice.indices. *)
From Coq Require Import List ZArith.
From Verif Require Import Base BaseRadix.
Import ListNotations.

Record nd (A : Type) := ND { nd_shape : list nat; nd_at : list nat -> A }.
Arguments ND {A}. Arguments nd_shape {A}. Arguments nd_at {A}.

(** reshape(shape, order="F") / reshape(shape): error if sizes differ. *)
Definition reshape_F {A} (d : A) (data : list A) (shape : list nat) : option (nd A) :=
  if Nat.eqb (length data) (prodn shape)
  then Some (ND shape (fun idx => nth (undigits shape idx) data d)) else None.
Definition reshape_C {A} (d : A) (data : list A) (shape : list nat) : option (nd A) :=
  if Nat.eqb (length data) (prodn shape)
  then Some (ND shape (fun idx => nth (undigits (rev shape) (rev idx)) data d)) else None.

(** ravel() (C order) and ravel(order="F"). *)
Definition ravel_C {A} (a : nd A) : list A := map (nd_at a) (c_indices (nd_shape a)).
Definition ravel_F {A} (a : nd A) : list A := map (nd_at a) (f_indices (nd_shape a)).

(** .T : all axes reversed. *)
Definition nd_T {A} (a : nd A) : nd A :=
  ND (rev (nd_shape a)) (fun idx => nd_at a (rev idx)).

(** python: one index entry of a subscript tuple. *)
Inductive index :=
| IInt (z : Z)
| ISlice (start stop step : option Z).

(** CPython PySlice_AdjustIndices / slice.indices(len), then range(...). *)
Definition slice_positions (len : nat) (start stop step : option Z) : option (list nat) :=
  let n := Z.of_nat len in
  let st := match step with None => 1%Z | Some s => s end in
  if Z.eqb st 0 then None else
  let lower := if Z.ltb st 0 then (-1)%Z else 0%Z in
  let upper := if Z.ltb st 0 then (n - 1)%Z else n in
  let clamp x := let x := if Z.ltb x 0 then (x + n)%Z else x in
                 Z.max lower (Z.min upper x) in
  let b := match start with None => if Z.ltb st 0 then upper else lower
                          | Some x => clamp x end in
  let e := match stop with None => if Z.ltb st 0 then lower else upper
                         | Some x => clamp x end in
  let cnt := if Z.ltb st 0 then ((b - e - st - 1) / (- st))%Z
             else ((e - b + st - 1) / st)%Z in
  Some (map (fun k => Z.to_nat (b + Z.of_nat k * st)) (seq 0 (Z.to_nat cnt))).

(** Selected positions along one axis; [None] = IndexError. *)
Definition index_positions (len : nat) (i : index) : option (list nat) :=
  match i with
  | IInt z => let z' := if Z.ltb z 0 then (z + Z.of_nat len)%Z else z in
              if (Z.leb 0 z' && Z.ltb z' (Z.of_nat len))%bool
              then Some [Z.to_nat z'] else None
  | ISlice a b c => slice_positions len a b c
  end.

(** a[i_0, i_1, ...]: integer axes disappear from the result shape, omitted
    trailing axes are taken completely; too many indices are an error. *)
Fixpoint resolve (shape : list nat) (ix : list index) : option (list (list nat)) :=
  match shape, ix with
  | [], [] => Some []
  | [], _ :: _ => None
  | n :: sh, [] => match resolve sh [] with
                   | Some l => Some (seq 0 n :: l) | None => None end
  | n :: sh, i :: ix => match index_positions n i, resolve sh ix with
                        | Some p, Some l => Some (p :: l) | _, _ => None end
  end.

(** Expand an index of the result into an index of the source: [kept] tells
    for each source axis whether it is kept (slice) or dropped (integer). *)
Fixpoint expand (kept : list bool) (pos : list (list nat)) (idx : list nat) : list nat :=
  match kept, pos with
  | true :: ks, p :: ps => match idx with
                           | j :: js => nth j p 0 :: expand ks ps js
                           | [] => nth 0 p 0 :: expand ks ps []
                           end
  | false :: ks, p :: ps => nth 0 p 0 :: expand ks ps idx
  | _, _ => []
  end.

Fixpoint kept_axes (shape : list nat) (ix : list index) : list bool :=
  match shape, ix with
  | [], _ => []
  | _ :: sh, [] => true :: kept_axes sh []
  | _ :: sh, IInt _ :: ix => false :: kept_axes sh ix
  | _ :: sh, ISlice _ _ _ :: ix => true :: kept_axes sh ix
  end.

Fixpoint kept_shape (kept : list bool) (pos : list (list nat)) : list nat :=
  match kept, pos with
  | true :: ks, p :: ps => length p :: kept_shape ks ps
  | false :: ks, _ :: ps => kept_shape ks ps
  | _, _ => []
  end.

Definition nd_getitem {A} (a : nd A) (ix : list index) : option (nd A) :=
  match resolve (nd_shape a) ix with
  | None => None
  | Some pos =>
      let k := kept_axes (nd_shape a) ix in
      Some (ND (kept_shape k pos) (fun idx => nd_at a (expand k pos idx)))
  end.

(** np.argsort of integer keys: the indices ordered by key.  numpy's default
    sort leaves the order of equal keys open; callers here have distinct keys. *)
Fixpoint arg_insert (key : nat -> nat) (i : nat) (l : list nat) : list nat :=
  match l with
  | [] => [i]
  | j :: r => if Nat.leb (key i) (key j) then i :: l else j :: arg_insert key i r
  end.
Definition argsort (keys : list nat) : list nat :=
  fold_right (arg_insert (fun i => nth i keys 0%nat)) [] (seq 0 (length keys)).

(** Python sequence index: negative counts from the end; [None] = IndexError. *)
Definition py_index (len : nat) (z : Z) : option nat :=
  let z' := if Z.ltb z 0 then (z + Z.of_nat len)%Z else z in
  if (Z.leb 0 z' && Z.ltb z' (Z.of_nat len))%bool then Some (Z.to_nat z') else None.
