(** Specification vocabulary for knot queries and refinement. *)
From Coq Require Import List Arith ZArith QArith Qcanon Sorted Permutation.
From Verif Require Import BaseQc S_Spline S_Value.
Import ListNotations.
Local Open Scope nat_scope.

(** Different values are at least eps apart. *)
Definition apart (eps : Qc) (l : list Qc) : Prop :=
  forall x y, In x l -> In y l -> x = y \/ (eps <= qabs (x - y))%Qc.

(** Repeat every value by its multiplicity. *)
Definition expand_knots (us : list Qc) (ms : list nat) : list Qc :=
  concat (map (fun um => repeat (fst um) (snd um)) (combine us ms)).

(** All parametric bounds are end knots. *)
Definition clamped_ends (p : nat) (kv : list Qc) : Prop :=
  kn kv 0 = kn kv p /\ kn kv (length kv - p - 1) = kn kv (length kv - 1).

(** The n inner points that divide [a, b] into n+1 equal pieces. *)
Definition equidistant (a b : Qc) (n : nat) : list Qc :=
  map (fun j => (a + (b - a) * inj j / inj (n + 1))%Qc) (seq 1 n).

(** [new] consists of n equidistant knots for every non-empty span of the
    valid range, and of no other knot. *)
Definition refines_spans (p : nat) (kv : list Qc) (n : nat) (new : list Qc) : Prop :=
  (forall i, p <= i < length kv - p - 1 -> (kn kv i < kn kv (i + 1))%Qc ->
     filter (fun x => qltb (kn kv i) x && qltb x (kn kv (i + 1)))%bool new =
     equidistant (kn kv i) (kn kv (i + 1)) n) /\
  (forall x, In x new ->
     exists i, p <= i < length kv - p - 1 /\ (kn kv i < x)%Qc /\ (x < kn kv (i + 1))%Qc).

(** Number of requests equal to x. *)
Definition requests (x : Qc) (ks : list Qc) : nat := length (filter (qeqb x) ks).

(** Feed the knots us, ascending, each with its number of requests, to the kernel. *)
Fixpoint feed {St} (kernel : St -> Qc -> nat -> St * nat) (ks us : list Qc) (st : St) : St :=
  match us with
  | [] => st
  | x :: us => feed kernel ks us (fst (kernel st x (requests x ks)))
  end.
(** Number of knots the kernel added when fed with x. *)
Fixpoint added {St} (kernel : St -> Qc -> nat -> St * nat) (ks us : list Qc) (st : St) (x : Qc) : nat :=
  match us with
  | [] => 0
  | y :: us => if qeqb x y then snd (kernel st y (requests y ks))
               else added kernel ks us (fst (kernel st y (requests y ks))) x
  end.

Definition mean (l : list Qc) : Qc := (qsum l / inj (length l))%Qc.

(** Affine map of an axis onto [0, 1] between its first and last knot. *)
Definition unit_param (a : paxis) (u : Qc) : Qc :=
  match a with
  | BezierAxis _ => u
  | KnotAxis _ kv => ((u - kn kv 0) / (kn kv (length kv - 1) - kn kv 0))%Qc
  end.

(** The requests whose flag says inserted. *)
Definition flagged (ks : list Qc) (flags : list (option bool)) : list Qc :=
  map fst (filter (fun kf => match snd kf with Some true => true | _ => false end) (combine ks flags)).
(** What a knot insertion does to a sorted knot vector: some number of copies
    of x (at most m) is added, in order. *)
Definition inserts_copies (ins : list Qc -> Qc -> nat -> list Qc) : Prop :=
  forall kv x m, non_decreasing kv -> exists c, c <= m /\
    non_decreasing (ins kv x m) /\ Permutation (ins kv x m) (kv ++ repeat x c).
(** A new interior knot is inserted when asked for once. *)
Definition inserts_new (ins : list Qc -> Qc -> nat -> list Qc) : Prop :=
  forall kv x, non_decreasing kv -> ~ In x kv -> (kn kv 0 < x)%Qc -> (x < kn kv (length kv - 1))%Qc ->
    non_decreasing (ins kv x 1) /\ Permutation (ins kv x 1) (x :: kv).

(** Every non-empty span of the valid range is wide enough for the tolerances
    when n knots are added. *)
Definition refinable (epsk epsd : Qc) (pkv : nat * list Qc) (n : nat) : Prop :=
  let (p, kv) := pkv in
  exists m, knot_vector p m kv /\
  forall i, p <= i < m -> (kn kv i < kn kv (i + 1))%Qc ->
     (epsk <= kn kv (i + 1) - kn kv i)%Qc /\ (epsd * inj (n + 1) <= kn kv (i + 1) - kn kv i)%Qc.
(** Same degree; the old knots and n equidistant ones in every span. *)
Definition refined (pkv pkv' : nat * list Qc) (n : nat) : Prop :=
  exists new, fst pkv' = fst pkv /\ non_decreasing (snd pkv') /\ Permutation (snd pkv') (snd pkv ++ new) /\
    refines_spans (fst pkv) (snd pkv) n new.
