(** Model of the thread distribution helpers.

    include/splinepy/utils/nthreads.hpp 33-76 (NThreadExecution) and the two
    kinds of worker loops handed to it: chunk loops (py_spline.cpp 387-392,
    419-426, 449-454, ...) and strided loops (py_multipatch.cpp 170-216,
    1215-1241, 1356-1363, 1415-1422, 1473-1480, 1513-1526).

    C++ int is Z (no overflow).  A worker call f(begin, end, i_thread) is the
    triple (begin, end, i_thread). *)
From Coq Require Import List ZArith.
From Verif Require Import Base.
Import ListNotations.
Local Open Scope Z_scope.

Record task := Task { t_begin : Z; t_end : Z; t_id : Z }.

(** What a call to NThreadExecution launches.  [DivByZero] is the integer
    division std::div(_, 0) of line 62 (undefined behaviour, SIGFPE). *)
Inductive launch :=
| DivByZero
| Inline (t : task)          (* lines 48-51: executed by the caller *)
| Threads (ts : list task).  (* lines 64-71: one std::thread per task *)

(** nthreads.hpp 33-76.  [hc] is std::thread::hardware_concurrency(). *)
Definition nthread_execution (hc total nthread0 : Z) : launch :=
  let nthread := if nthread0 <? 0 then hc else nthread0 in          (* 43-45 *)
  if nthread <=? 1 then Inline (Task 0 total 0)                     (* 48-51 *)
  else
    let nthread := Z.min total nthread in                           (* 54 *)
    if nthread =? 0 then DivByZero                                  (* 62 *)
    else
      let chunk := Z.quot (total + nthread - 1) nthread in          (* 62 *)
      Threads
        (map (fun i => Task (i * chunk) ((i + 1) * chunk) i)        (* 64-67 *)
             (zrange 0 (nthread - 1))
         ++ [Task ((nthread - 1) * chunk) total (nthread - 1)]).    (* 70-71 *)

Definition launched (l : launch) : option (list task) :=
  match l with
  | DivByZero => None
  | Inline t => Some [t]
  | Threads ts => Some ts
  end.

(** Chunk worker loop: for (int i{begin}; i < end; ++i) body(i)
    (py_spline.cpp 387-392 and the other PySpline queries). *)
Definition chunk_indices (t : task) : list Z := zrange (t_begin t) (t_end t).

(** Strided worker loop: for (int i{i_thread}; i < total; i += n) body(i)
    (py_multipatch.cpp 174, 1228, 1357, 1416, 1474, 1518), as a big-step
    relation: [strided_run n total i l] iff the loop started at i terminates
    having executed the body for the indices l.  With n <= 0 no derivation
    exists as soon as i < total. *)
Inductive strided_run (n total : Z) : Z -> list Z -> Prop :=
| strided_done : forall i, total <= i -> strided_run n total i []
| strided_step : forall i l, i < total ->
    strided_run n total (i + n) l -> strided_run n total i (i :: l).

(** The same loop as a function for n >= 1; fuel is the number of remaining
    integers. *)
Fixpoint strided_fuel (fuel : nat) (n total i : Z) : list Z :=
  match fuel with
  | O => []
  | S fuel => if i <? total then i :: strided_fuel fuel n total (i + n) else []
  end.
Definition strided_indices (n total : Z) (t : task) : list Z :=
  strided_fuel (Z.to_nat (total - t_id t)) n total (t_id t).

(** One write into the shared result buffer: address and value. *)
Notation write V := (Z * V)%type.
Definition memory (V : Type) := Z -> V.
Definition store {V} (m : memory V) (w : write V) : memory V :=
  fun a => if a =? fst w then snd w else m a.
Definition run_writes {V} (s : list (write V)) (m : memory V) : memory V :=
  fold_left store s m.

(** Body of a query loop (py_spline.cpp 389-390, py_multipatch.cpp 1418-1420):
    the evaluation kernel writes into the block [i*dim, (i+1)*dim) of the
    output.  [kernel i] is the list of writes (offset in the block, value) the
    external evaluator performs for query i; it may write a cell repeatedly.
    The evaluator is assumed not to read the result buffer and not to keep
    shared mutable state. *)
Definition block_writes {V} (dim : Z) (kernel : Z -> list (write V)) (i : Z)
  : list (write V) :=
  map (fun w => (i * dim + fst w, snd w)) (kernel i).

Definition worker_trace {V} (dim : Z) (kernel : Z -> list (write V))
  (idx : task -> list Z) (t : task) : list (write V) :=
  flat_map (block_writes dim kernel) (idx t).

(** All interleavings of the traces of the workers. *)
Inductive interleaving {A} : list (list A) -> list A -> Prop :=
| il_nil : forall ts, (forall t, In t ts -> t = []) -> interleaving ts []
| il_step : forall pre a t post s,
    interleaving (pre ++ t :: post) s ->
    interleaving (pre ++ (a :: t) :: post) (a :: s).

(** py_multipatch.cpp 792-846, ExtractAllBoundarySplines.  [interfaces] is the
    table of rows (one per patch); a face is reported as (patch, face id).
    [None] = error raised (793-808) or row read outside the table. *)
Definition boundary_faces_of_row (i : nat) (row : list Z) : list (nat * nat) :=
  flat_map (fun jf => if snd jf <? 0 then [(i, fst jf)] else [])
           (combine (seq 0 (length row)) row).

Fixpoint option_concat {A} (l : list (option (list A))) : option (list A) :=
  match l with
  | [] => Some []
  | None :: _ => None
  | Some x :: l => match option_concat l with
                   | Some y => Some (x ++ y)
                   | None => None
                   end
  end.

Definition extract_task (interfaces : list (list Z)) (t : task)
  : option (list (nat * nat)) :=
  option_concat
    (map (fun i => match nth_error interfaces (Z.to_nat i) with
                   | Some row => Some (boundary_faces_of_row (Z.to_nat i) row)
                   | None => None
                   end) (chunk_indices t)).

Definition extract_all_boundary_splines (hc : Z) (n_splines : nat)
  (interfaces : list (list Z)) (n_threads : Z) : option (list (nat * nat)) :=
  if negb (Nat.eqb n_splines (length interfaces)) then None          (* 796-803 *)
  else if n_threads <? 1 then None                                   (* 805-808 *)
  else match launched (nthread_execution hc n_threads n_threads) with (* 838 *)
       | None => None
       | Some ts => option_concat (map (extract_task interfaces) ts) (* 841-843 *)
       end.
