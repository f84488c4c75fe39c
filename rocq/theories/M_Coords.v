(** Model of in-place edits of control points and weights: the numpy subclass
    PhysicalSpaceArray (splinepy/utils/data.py) and the pointers into the core
    spline (src/utils/coordinate_pointers.cpp).

    A core stores one coordinate row for each control point; rational splines
    store them multiplied by the weight, and the weights.  The core does not
    share memory with the array (true for Bezier, RationalBezier and NURBS).
    Not modelled: writes numpy performs without calling [__setitem__] or an
    in-place operator (fill, np.copyto, flat, out=), a bool used as integer
    index, the assignment of a complex key to a sub array's sub array. *)
From Coq Require Import List Arith ZArith Bool QArith Qcanon.
From Verif Require Import Base BaseQc M_Numpy.
Import ListNotations.
Local Open Scope nat_scope.

Record core := Core { c_rational : bool; c_coords : list (list Qc); c_weights : list Qc }.

(** coordinate_pointers.hpp 35-50; [None]: outside the array (checked in debug
    builds only, otherwise some other memory is accessed). *)
Definition wrap_id (len : nat) (i : Z) : option nat :=
  let i := if (i <? 0)%Z then (i + Z.of_nat len)%Z else i in
  if (i <? 0)%Z || (Z.of_nat len <=? i)%Z then None else Some (Z.to_nat i).

Definition scale (w : Qc) (row : list Qc) : list Qc := map (fun x => x * w)%Qc row.

(** ControlPointPointers::SetRow, coordinate_pointers.cpp 29-51. *)
Definition cp_put (c : core) (k : nat) (values : list Qc) : core :=
  Core (c_rational c)
       (set_nth (c_coords c) k
          (if c_rational c then scale (nth k (c_weights c) 0%Qc) values else values))
       (c_weights c).
Definition cp_set_row (c : core) (id : Z) (values : list Qc) : option core :=
  match wrap_id (length (c_coords c)) id with
  | None => None
  | Some k => Some (cp_put c k values)
  end.

(** SetRows<true> (sync_rows), coordinate_pointers.hpp 138-188: row [id] of
    [values] for every id. *)
Fixpoint cp_sync_rows (c : core) (ids : list Z) (values : list (list Qc)) : option core :=
  match ids with
  | [] => Some c
  | i :: ids =>
      match wrap_id (length (c_coords c)) i with
      | None => None
      | Some k => cp_sync_rows (cp_put c k (nth k values [])) ids values
      end
  end.

(** Sync, coordinate_pointers.cpp 53-86. *)
Definition cp_sync (c : core) (values : list (list Qc)) : core :=
  fold_left (fun c k => cp_put c k (nth k values [])) (seq 0 (length (c_coords c))) c.

(** WeightPointers::SetRow, coordinate_pointers.cpp 88-114. *)
Definition w_put (c : core) (k : nat) (value : Qc) : core :=
  let factor := (value / nth k (c_weights c) 0)%Qc in
  Core (c_rational c)
       (set_nth (c_coords c) k (scale factor (nth k (c_coords c) [])))
       (set_nth (c_weights c) k value).
(** Sync, 116-123. *)
Definition w_sync (c : core) (values : list Qc) : core :=
  fold_left (fun c k => w_put c k (nth k values 0%Qc)) (seq 0 (length (c_weights c))) c.

(** What the core reports, nurbs.hpp 283-298 (bspline.hpp, bezier.inl: as is). *)
Definition reported_cps (c : core) : list (list Qc) :=
  if c_rational c
  then map (fun wr => scale (1 / fst wr)%Qc (snd wr)) (combine (c_weights c) (c_coords c))
  else c_coords c.

(** * Keys *)

(** The key of [__setitem__], alone or as first entry of a tuple:
    integer or 0-d array; 1-d integer array; list of integers; boolean array
    or list; slice; Ellipsis; anything else, with the rows it touches. *)
Inductive key :=
| KInt (i : Z)
| KArray (l : list Z)
| KList (l : list Z)
| KMask (m : list bool)
| KSlice (start stop step : option Z)
| KEllipsis
| KOther (rows : list nat).

Definition mask_rows (m : list bool) : list nat :=
  map fst (filter snd (combine (seq 0 (length m)) m)).

(** The rows numpy writes; [None] = numpy raises. *)
Definition numpy_rows (n : nat) (k : key) : option (list nat) :=
  match k with
  | KInt i => option_map (fun k => [k]) (py_index n i)
  | KArray l | KList l => all_some (map (py_index n) l)
  | KMask m => if length m =? n then Some (mask_rows m) else None
  | KSlice a b s => slice_positions n a b s
  | KEllipsis => Some (seq 0 n)
  | KOther rows => if forallb (fun r => r <? n) rows then Some rows else None
  end.

(** np.arange(start, stop, step) *)
Definition arange (start stop step : Z) : list Z :=
  let cnt := if (step <? 0)%Z then ((start - stop - step - 1) / (- step))%Z
             else ((stop - start + step - 1) / step)%Z in
  map (fun k => start + Z.of_nat k * step)%Z (seq 0 (Z.to_nat cnt)).

(** data.py 221-237: start, stop, step of a slice. *)
Definition flip (n : nat) (x : Z) : Z := if (x <? 0)%Z then (x + Z.of_nat n)%Z else x.
Definition slice_ids (n : nat) (start stop step : option Z) : list Z :=
  arange (match start with None => 0%Z | Some x => flip n x end)
         (match stop with None => Z.of_nat n | Some x => flip n x end)
         (match step with None => 1%Z | Some x => x end).

(** The write of numpy: [f] gives the new row for every selected row. *)
Definition numpy_set (rows : list nat) (f : nat -> list Qc -> list Qc) (a : list (list Qc))
  : list (list Qc) :=
  map (fun ir => if existsb (Nat.eqb (fst ir)) rows then f (fst ir) (snd ir) else snd ir)
      (combine (seq 0 (length a)) a).

Inductive result :=
| Wrote (a : list (list Qc)) (c : core)   (* array and core afterwards *)
| Raised (a : list (list Qc)) (c : core)  (* python exception *)
| OutOfBounds.                            (* access outside the core's arrays *)

Definition written (a : list (list Qc)) (c : option core) : result :=
  match c with Some c => Wrote a c | None => OutOfBounds end.

(** [__setitem__] of control points, data.py 172-250. *)
Definition setitem (k : key) (f : nat -> list Qc -> list Qc) (a : list (list Qc)) (c : core) : result :=
  match numpy_rows (length a) k with
  | None => Raised a c                                            (* 174 *)
  | Some rows =>
      let a' := numpy_set rows f a in
      match k with
      | KInt i => written a' (cp_set_row c i                      (* 190-193, 207-211 *)
                    (match py_index (length a) i with Some r => nth r a' [] | None => [] end))
      | KArray l => written a' (cp_sync_rows c l a')              (* 195-199, 213-219 *)
      | KList [] => Raised a' c                                   (* 202: key[0] *)
      | KList l => written a' (cp_sync_rows c l a')               (* 201-204 *)
      | KMask m => written a' (cp_sync_rows c (map Z.of_nat (mask_rows m)) a')
      | KSlice s e st => written a' (cp_sync_rows c (slice_ids (length a) s e st) a')
      | KEllipsis => Wrote a' (cp_sync c a')                      (* 239-242 *)
      | KOther rows => written a' (cp_sync_rows c (map Z.of_nat (nodup Nat.eq_dec rows)) a')
      end
  end.

(** [__setitem__] of weights: [spl.weights] is a reshaped child, so every
    write is followed by a full sync (data.py 177-179, spline.py 218-221). *)
Definition numpy_set_w (rows : list nat) (f : nat -> Qc -> Qc) (w : list Qc) : list Qc :=
  map (fun ir => if existsb (Nat.eqb (fst ir)) rows then f (fst ir) (snd ir) else snd ir)
      (combine (seq 0 (length w)) w).
Definition setitem_w (k : key) (f : nat -> Qc -> Qc) (w : list Qc) (c : core)
  : option (list Qc * core) :=
  match numpy_rows (length w) k with
  | None => None
  | Some rows => let w' := numpy_set_w rows f w in Some (w', w_sync c w')
  end.

(** In-place operators of the whole array (data.py 97-170): full sync. *)
Definition inplace (f : nat -> list Qc -> list Qc) (a : list (list Qc)) (c : core)
  : list (list Qc) * core :=
  let a' := numpy_set (seq 0 (length a)) f a in (a', cp_sync c a').

(** * Sequences of edits *)
Inductive edit :=
| EditC (k : key) (f : nat -> list Qc -> list Qc)
| EditW (k : key) (f : nat -> Qc -> Qc)
| InPlace (f : nat -> list Qc -> list Qc).

(** [None]: an edit raised or left the arrays. *)
Fixpoint edits (es : list edit) (a : list (list Qc)) (w : list Qc) (c : core)
  : option (list (list Qc) * list Qc * core) :=
  match es with
  | [] => Some (a, w, c)
  | EditC k f :: es =>
      match setitem k f a c with
      | Wrote a c => edits es a w c
      | _ => None
      end
  | EditW k f :: es =>
      match setitem_w k f w c with
      | Some (w, c) => edits es a w c
      | None => None
      end
  | InPlace f :: es => let (a, c) := inplace f a c in edits es a w c
  end.
