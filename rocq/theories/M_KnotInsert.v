(** Model of src/py/py_knot_insertion_matrix.cpp. *)
From Coq Require Import List Arith ZArith QArith Qcanon.
From Verif Require Import Base BaseRadix BaseQc BaseSort.
Import ListNotations.
Local Open Scope nat_scope.

(** Reading old_kv_ptr[z]; [None] outside the buffer. *)
Definition kv_get (kv : list Qc) (z : Z) : option Qc :=
  if Z.ltb z 0 then None else nth_error kv (Z.to_nat z).

(** Lines 100-141: index_of_knot_span_base for the new knots, walking backwards.
    [newrev] are the new knots from index size-2 down to 0; [cur] is
    current_old_id, [span] is current_knot_span.  The result lists the bases in
    the same (backward) order.  [None]: the error of line 128 or a read outside
    old_kv. *)
Fixpoint span_loop (tol : Qc) (old newrev : list Qc) (cur span : Z) : option (list Z) :=
  match newrev with
  | [] => Some []
  | t :: rest =>
      match kv_get old cur with
      | None => None
      | Some o =>
          let st :=
            if qltb (qabs (o - t)%Qc) tol                              (* 108 *)
            then match kv_get old (cur + 1) with
                 | None => None
                 | Some o1 => Some (Z.sub cur 1, if qltb o o1 then cur else span) (* 110-113 *)
                 end
            else if qltb t o then None                                 (* 115-134 *)
                 else Some (cur, span) in
          match st with
          | None => None
          | Some (cur, span) =>
              match kv_get old span with
              | None => None
              | Some os =>
                  match span_loop tol old rest cur span with
                  | None => None
                  | Some l => Some ((if qltb t os then cur else span) :: l)  (* 136-140 *)
                  end
              end
          end
      end
  end.

(** Lines 97-141.  The entry of the last new knot stays 0 and is never used. *)
Definition knot_span_bases (tol : Qc) (old new : list Qc) : option (list Z) :=
  match span_loop tol old (rev (removelast new))
          (Z.of_nat (length old) - 2) (Z.of_nat (length old) - 1) with
  | None => None
  | Some l => Some (rev l)
  end.

(** Lines 60-94: R_matrix(t, mu, deg, i, j).  The caller keeps i < deg, j <= deg. *)
Definition r_matrix (old : list Qc) (t : Qc) (mu deg i j : nat) : Qc :=
  if (j <? i) || (i + 1 <? j) then 0%Qc
  else
    let hi := nth (mu + 1 + i) old 0%Qc in
    let lo := nth (mu + 1 + i - deg) old 0%Qc in
    if j =? i then ((hi - t) / (hi - lo))%Qc else ((t - lo) / (hi - lo))%Qc.

Definition upd (v : nat -> Qc) (k : nat) (x : Qc) : nat -> Qc :=
  fun q => if q =? k then x else v q.

(** Lines 183-187: for (q = d-1; q > 0; q--). *)
Fixpoint inner_loop (R : nat -> nat -> Qc) (q : nat) (v : nat -> Qc) : nat -> Qc :=
  match q with
  | O => v
  | S q' => inner_loop R q' (upd v q (v q' * R q' q + v q * R q q)%Qc)
  end.

(** Lines 173-191: one degree elevation step of the row, in place. *)
Definition degree_step (R : nat -> nat -> Qc) (d : nat) (v : nat -> Qc) : nat -> Qc :=
  let v := upd v d (Qcmult (R (d - 1) d) (v (d - 1))) in
  let v := inner_loop R (d - 1) v in
  upd v 0 (Qcmult (R 0 0) (v 0)).

(** Lines 146-192 for one row: the values written to columns mu-degree+q.
    following_n_equal_knots (line 97) is never filled, so the identity branch
    (154-158) is dead and [offset] is unused. *)
Definition row_values (old new : list Qc) (degree i mu : nat) : nat -> Qc :=
  let R d := r_matrix old (nth (i + d) new 0%Qc) mu d in
  let v := upd (upd (fun _ => 0%Qc) 0 (R 1 0 0)) 1 (R 1 0 1) in       (* 167-168 *)
  fold_left (fun v d => degree_step (R d) d v) (seq 2 (degree - 1)) v.

(** One row of the dense matrix.  [None]: a column outside the row is written
    (mu-degree < 0, or past the last column). *)
Definition matrix_row (n_old : nat) (old new : list Qc) (degree i : nat) (mu : Z)
  : option (list Qc) :=
  let first := (mu - Z.of_nat degree)%Z in
  if Z.ltb first 0 || Z.leb (Z.of_nat n_old) (first + Z.of_nat (Nat.max degree 1)) then None
  else
    let v := row_values old new degree i (Z.to_nat mu) in
    Some (map (fun c => if c <? Z.to_nat first then 0%Qc else v (c - Z.to_nat first))
              (seq 0 n_old)).

(** Lines 36-196: ComputeKnotInsertionMatrixAndKnotSpan. *)
Definition insertion_matrix (tol : Qc) (old new : list Qc) (degree : nat)
  : option (list (list Qc) * list Z) :=
  let n_old := length old - degree - 1 in
  let n_new := length new - degree - 1 in
  match knot_span_bases tol old new with
  | None => None
  | Some mus =>
      match all_some (map (fun i => matrix_row n_old old new degree i (nth i mus 0%Z))
                          (seq 0 n_new)) with
      | None => None
      | Some rows => Some (rows, mus)
      end
  end.

(** Lines 249-258: merging the old knots with the sorted new knots.  Also
    records which indices of new_knots are read by the comparison of line 250
    (j may equal new_knots.size(): the value read there is irrelevant because
    of the disjunct of line 251).  [None]: old knot vector read past its end. *)
Fixpoint merge_loop (fuel i j : nat) (old new : list Qc) : option (list Qc * list nat) :=
  match fuel with
  | O => Some ([], [])
  | S fuel =>
      match nth_error old i with
      | None => None
      | Some o =>
          let less := match nth_error new j with Some x => qltb o x | None => false end in
          let r := if less || (length new <=? j)
                   then (o, merge_loop fuel (S i) j old new)
                   else (nth j new 0%Qc, merge_loop fuel i (S j) old new) in
          match snd r with
          | None => None
          | Some (l, reads) => Some (fst r :: l, j :: reads)
          end
      end
  end.

(** A sparse matrix in coordinate form: (row, column, value). *)
Notation entry := (nat * nat * Qc)%type.

(** Lines 273-295: id conversions. *)
Definition global_to_local (n_cps : list nat) (id : nat) : list nat := digits n_cps id.
Definition local_to_global_id (n_cps local : list nat) : nat :=
  match rev (combine local n_cps) with
  | [] => 0
  | (l, _) :: r => fold_left (fun g ln => g * snd ln + fst ln) r l
  end.

(** Lines 207-343: ComputeGlobalKnotInsertionMatrix for axes given as
    (degree, knot vector).  Result: entries, new size, old size, the refined
    knot vector, the buffer of new knots after the call and the indices read from it. *)
Record global_matrix := GlobalMatrix
  { gm_entries : list entry; gm_new : nat; gm_old : nat; gm_kv : list Qc;
    gm_buffer : list Qc; gm_reads : list nat }.

Definition global_insertion_matrix (tol : Qc) (axes : list (nat * list Qc)) (k : nat)
  (new_knots : list Qc) : option global_matrix :=
  match nth_error axes k with
  | None => None
  | Some (degree, old) =>
      let new_knots := qsort new_knots in                              (* 220 *)
      let n_cp_old := map (fun a => length (snd a) - fst a - 1) axes in
      let n_k := nth k n_cp_old 0 in
      let n_cp_new := set_nth n_cp_old k (n_k + length new_knots) in   (* 234 *)
      let n_old := fold_left Nat.mul n_cp_old 1 in
      let n_new := n_old / n_k * (n_k + length new_knots) in           (* 235-236 *)
      match merge_loop (length old + length new_knots) 0 0 old new_knots with
      | None => None
      | Some (new, reads) =>
          match insertion_matrix tol old new degree with
          | None => None
          | Some (rows, mus) =>
              let entries :=
                flat_map (fun j =>
                  let loc := global_to_local n_cp_new j in
                  let i_row := nth k loc 0 in
                  let mu := Z.to_nat (nth i_row mus 0%Z) in
                  map (fun c => (j, local_to_global_id n_cp_old (set_nth loc k c),
                                 nth c (nth i_row rows []) 0%Qc))
                      (seq (mu - degree) (degree + 1)))                (* 324-336 *)
                (seq 0 n_new) in
              Some (GlobalMatrix entries n_new n_old new new_knots reads)
          end
      end
  end.

(** bspline.py 256-269 and the product of the sparse matrix with the control
    points (coordinate entries are summed, as scipy does). *)
Definition apply_entries (entries : list entry) (n_new dim : nat) (cps : list (list Qc))
  : list (list Qc) :=
  map (fun r => map (fun d =>
         qsum (map (fun e => if fst (fst e) =? r
                             then (snd e * nth d (nth (snd (fst e)) cps []) 0)%Qc else 0%Qc)
                   entries)) (seq 0 dim))
      (seq 0 n_new).

(** data.py 277-306 (enforce_contiguous, as called in bspline.py 260): what
    reaches the C++ function for the new knots. *)
Inductive knots_arg :=
| ContiguousFloat64 (l : list Qc)   (* handed over by reference *)
| OtherArray (l : list Qc)          (* copied by ascontiguousarray *)
| PyList (l : list Qc).             (* converted by pybind11 to a temporary *)
Definition arg_values (a : knots_arg) : list Qc :=
  match a with ContiguousFloat64 l => l | OtherArray l => l | PyList l => l end.

(** Content of the caller's object after knot_insertion_matrix returned [g]. *)
Definition arg_after (g : global_matrix) (a : knots_arg) : list Qc :=
  match a with
  | ContiguousFloat64 _ => gm_buffer g    (* sorted in place, line 220 *)
  | OtherArray l => l
  | PyList l => l
  end.
