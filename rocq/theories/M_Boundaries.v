(** Model of the boundary bookkeeping of multipatches: splinepy/multipatch.py
    (boundaries, set_boundary, boundary_from_function, combine_boundaries) and
    AddBoundariesFromContinuity of src/py/py_multipatch.cpp.

    The interface table is flattened: entry [patch * faces + face].  Numbers of
    faces and patches are nat, entries Z (no overflow of C++ int). *)
From Coq Require Import List Arith ZArith Bool.
From Verif Require Import Base M_Numpy.
Import ListNotations.
Local Open Scope nat_scope.

(** * Python side *)

(** self.interfaces.min(); numpy raises for an empty table (no patches). *)
Definition table_min (t : list Z) : Z := fold_left Z.min t (hd 0%Z t).

(** np.where(interfaces == v), as flat positions. *)
Definition where_is (p : Z -> bool) (t : list Z) : list nat :=
  filter (fun i => p (nth i t 0%Z)) (seq 0 (length t)).

(** boundaries, multipatch.py 155-180: range(-1, max_BID - 1, -1). *)
Definition boundaries (t : list Z) : list (list nat) :=
  map (fun k => where_is (Z.eqb (- Z.of_nat (S k))) t)
      (seq 0 (Z.to_nat (- table_min t))).

(** t[positions] = v *)
Definition put_all (t : list Z) (l : list nat) (v : Z) : list Z :=
  fold_left (fun t i => set_nth t i v) l t.

(** The new id, 235-248 and 368-381. *)
Definition new_bid (t : list Z) (id : option Z) : Z :=
  match id with
  | None => (table_min t - 1)%Z
  | Some b => (- Z.abs b)%Z
  end.

(** interfaces[spline_ids, boundary_faces]: flat positions; [None] = IndexError
    (254: ValueError). *)
Definition face_positions (patches faces : nat) (ids : list (Z * Z)) : option (list nat) :=
  all_some (map (fun pf =>
    match py_index patches (fst pf), py_index faces (snd pf) with
    | Some p, Some f => Some (p * faces + f)
    | _, _ => None
    end) ids).

(** set_boundary 211-268; [None] = ValueError, the table is unchanged. *)
Definition set_boundary (faces : nat) (t : list Z) (ids : list (Z * Z)) (id : option Z)
  : option (list Z) :=
  match face_positions (length t / faces) faces ids with
  | None => None
  | Some pos =>
      if existsb (fun i => -1 <? nth i t 0)%Z pos then None
      else Some (put_all t pos (new_bid t id))
  end.

(** np.isin(-interfaces, np.abs(mask)) *)
Definition in_mask (mask : list Z) (v : Z) : bool :=
  existsb (fun m => - v =? Z.abs m)%Z mask.

(** boundary_from_function 342-417: [on] is the boolean the function returns for
    the center of a face (flat position). *)
Definition boundary_from_function (t : list Z) (on : nat -> bool) (mask : option (list Z))
  (id : option Z) : list Z :=
  let sel := match mask with
             | None => where_is (fun v => v <? 0)%Z t        (* 384 *)
             | Some m => where_is (in_mask m) t              (* 386 *)
             end in
  put_all t (filter on sel) (new_bid t id).

(** combine_boundaries 511-535; [None] = exception for an empty mask (np.min).
    The default mask None raises in np.abs. *)
Definition combine_boundaries (t : list Z) (mask : list Z) : option (list Z) :=
  let sel := where_is (in_mask mask) t in
  match sel with
  | [] => Some t
  | _ => match mask with
         | [] => None
         | m :: r => Some (put_all t sel (fold_left Z.min r m))
         end
  end.

Inductive bop :=
| SetBoundary (ids : list (Z * Z)) (id : option Z)
| FromFunction (on : nat -> bool) (mask : option (list Z)) (id : option Z)
| Combine (mask : list Z).

(** A failed call leaves the table unchanged. *)
Definition bstep (faces : nat) (t : list Z) (o : bop) : list Z :=
  match o with
  | SetBoundary ids id => match set_boundary faces t ids id with Some t => t | None => t end
  | FromFunction on mask id => boundary_from_function t on mask id
  | Combine mask => match combine_boundaries t mask with Some t => t | None => t end
  end.
Definition bsteps (faces : nat) (t : list Z) (ops : list bop) : list Z :=
  fold_left (bstep faces) ops t.

(** * Boundaries from continuity *)
Section Continuity.
Variables (faces n : nat) (conn : list Z).
(** areG1(normal_vector(patch, face), normal_vector(patch', face')), 890-948. *)
Variable smooth : nat -> nat -> bool.

(** 958-992, one face [k] = i * faces + j of patch [i]: C++ division truncates
    towards zero.  [None]: access in front of the arrays (the face is a boundary
    whose truncated patch number is not below i, that is i = 0). *)
Definition g1_face (g : list bool) (k : nat) : option (list bool) :=
  let c := nth k conn 0%Z in
  let adjacent := Z.quot c (Z.of_nat faces) in
  if (adjacent <? Z.of_nat (k / faces))%Z then Some g
  else if (c <? 0)%Z then None
  else let b := smooth k (Z.to_nat c) in
       Some (set_nth (set_nth g k b) (Z.to_nat c) b).
(** All faces in order, one thread. *)
Fixpoint g1_faces (ks : list nat) (g : list bool) : option (list bool) :=
  match ks with
  | [] => Some g
  | k :: ks => match g1_face g k with None => None | Some g => g1_faces ks g end
  end.
Definition precompute : option (list bool) :=
  g1_faces (seq 0 (n * faces)) (repeat false (n * faces)).

Variable g1 : list bool.

(** 1014-1036: the faces [fs] of patch [c]; id 0 = not assigned. *)
Fixpoint visit (cur c : nat) (fs : list nat) (stack asg : list nat) : list nat * list nat :=
  match fs with
  | [] => (stack, asg)
  | f :: fs =>
      if nth (c * faces + f) g1 false
      then let b := Z.to_nat (Z.quot (nth (c * faces + f) conn 0%Z) (Z.of_nat faces)) in
           if nth b asg 0 =? 0
           then visit cur c fs (b :: stack) (set_nth asg b cur)
           else visit cur c fs stack asg
      else visit cur c fs stack asg
  end.

(** 1011-1037: while (!queued_splines.empty()); [None]: out of fuel. *)
Fixpoint propagate (fuel cur : nat) (stack asg : list nat) : option (list nat) :=
  match stack with
  | [] => Some asg
  | c :: stack =>
      match fuel with
      | O => None
      | S fuel =>
          let (stack, asg) := visit cur c (seq 0 faces) stack asg in
          propagate fuel cur stack asg
      end
  end.

(** 1000-1042: new ids and current_max_id. *)
Fixpoint assign (is : list nat) (cur : nat) (asg : list nat) : option (list nat * nat) :=
  match is with
  | [] => Some (asg, cur)
  | i :: is =>
      if nth i asg 0 =? 0
      then match propagate (S (2 * n)) cur [i] (set_nth asg i cur) with
           | None => None
           | Some asg => assign is (S cur) asg
           end
      else assign is cur asg
  end.
Definition new_ids : option (list nat * nat) := assign (seq 0 n) 1 (repeat 0 n).
End Continuity.

(** 1045-1053: the new ids are written over the negative entries, in order. *)
Fixpoint write_ids (t : list Z) (ids : list nat) : option (list Z) :=
  match t with
  | [] => match ids with [] => Some [] | _ => None end       (* 1054-1059 *)
  | v :: t =>
      if (v <? 0)%Z
      then match ids with
           | [] => None                                      (* read behind the end *)
           | b :: ids => option_map (cons (- Z.of_nat b)%Z) (write_ids t ids)
           end
      else option_map (cons v) (write_ids t ids)
  end.

(** AddBoundariesFromContinuity 848-1062, one thread. *)
Definition from_continuity (faces n : nat) (conn : list Z) (smooth : nat -> nat -> bool)
  (t : list Z) : option (list Z * nat) :=
  match precompute faces n conn smooth with
  | None => None
  | Some g1 =>
      match new_ids faces n conn g1 with
      | None => None
      | Some (ids, m) => option_map (fun t => (t, m)) (write_ids t ids)
      end
  end.

(** * Threads writing packed bits *)

(** std::vector<bool> packs bits into words; assigning a bit reads the word and
    writes it back.  One word holds all bits here.  A thread performs its list of
    bit assignments; a schedule says which thread takes the next half step. *)
Record bit_thread := BitThread { bt_todo : list (nat * bool); bt_loaded : option (list bool) }.
Definition half_step (word : list bool) (t : bit_thread) : list bool * bit_thread :=
  match bt_loaded t with
  | None => match bt_todo t with
            | [] => (word, t)
            | _ => (word, BitThread (bt_todo t) (Some word))            (* load *)
            end
  | Some w => match bt_todo t with
              | [] => (word, BitThread [] None)
              | (k, b) :: r => (set_nth w k b, BitThread r None)        (* store *)
              end
  end.
Fixpoint run_bits (schedule : list nat) (word : list bool) (ts : list bit_thread)
  : list bool * list bit_thread :=
  match schedule with
  | [] => (word, ts)
  | s :: sch =>
      let (word, t) := half_step word (nth s ts (BitThread [] None)) in
      run_bits sch word (set_nth ts s t)
  end.
(** The assignments of the thread handling the patches [ps] (974-990). *)
Definition bit_writes (faces : nat) (conn : list Z) (smooth : nat -> nat -> bool) (ps : list nat)
  : list (nat * bool) :=
  flat_map (fun i => flat_map (fun j =>
    let k := i * faces + j in let c := nth k conn 0%Z in
    if (Z.quot c (Z.of_nat faces) <? Z.of_nat i)%Z then []
    else [(k, smooth k (Z.to_nat c)); (Z.to_nat c, smooth k (Z.to_nat c))]) (seq 0 faces)) ps.
