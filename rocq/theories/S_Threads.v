(** Specification vocabulary for the multi-threaded queries (C01-C04, C35). *)
From Coq Require Import List ZArith Permutation.
From Verif Require Import Base.
Import ListNotations.
Local Open Scope Z_scope.

(** Every item 0 .. total-1 is processed, exactly once, and nothing else is. *)
Definition processed_exactly_once (total : Z) (visited : list Z) : Prop :=
  Permutation visited (zrange 0 total).

(** The number of worker threads a request stands for: negative requests mean
    "all cores", and never more threads than items are used. *)
Definition effective_threads (cores requested : Z) : Z :=
  if Z.ltb requested 0 then cores else requested.

(** The arithmetic condition under which rounding the chunk size up does not
    overshoot: all chunks but the last fit. *)
Definition chunks_fit (total threads : Z) : Prop :=
  threads <= 1 \/
  let n := Z.min total threads in (n - 1) * ((total + n - 1) / n) <= total.

(** The answer of a single-threaded query: cell a belongs to item a / dim. *)
Definition last_write {V} (ws : list (Z * V)) (j : Z) (default : V) : V :=
  fold_left (fun v w => if Z.eqb j (fst w) then snd w else v) ws default.

(** All boundary faces of an interface table, in patch-major order. *)
Definition all_boundary_faces (interfaces : list (list Z)) (f : nat * nat) : Prop :=
  exists row z, nth_error interfaces (fst f) = Some row /\
                nth_error row (snd f) = Some z /\ z < 0.
