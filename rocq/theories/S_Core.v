(** Specification for creating splines and for reading and assigning their
    properties. *)
From Coq Require Import List Arith ZArith QArith Qcanon.
From Verif Require Import Base BaseQc S_Spline S_Value M_Core.
Import ListNotations.
Local Open Scope nat_scope.

(** One knot vector suits one degree. *)
Definition knots_fit (d : Z) (kv : list Qc) : Prop :=
  (0 <= d)%Z /\ non_decreasing kv /\ (2 * (d + 1) <= Z.of_nat (length kv))%Z.

(** Number of control points wanted by degrees (and knot vectors). *)
Fixpoint wanted (degs : list Z) (kvs : option (list (list Qc))) : Z :=
  match degs, kvs with
  | [], _ => 1
  | d :: degs, None => (d + 1) * wanted degs None
  | d :: degs, Some (kv :: kvs) => (Z.of_nat (length kv) - d - 1) * wanted degs (Some kvs)
  | _, Some [] => 0
  end%Z.

(** Mutually consistent properties. *)
Definition consistent (degs : list Z) (kvs : option (list (list Qc)))
    (cps : list (list Qc)) (ws : option (list Qc)) : Prop :=
  degs <> [] /\
  match kvs with
  | None => Forall (fun d => (0 <= d)%Z) degs
  | Some kvs => Forall2 knots_fit degs kvs
  end /\
  (exists dim, 0 < dim /\ Forall (fun p => length p = dim) cps) /\
  Z.of_nat (length cps) = wanted degs kvs /\
  match ws with None => True | Some ws => length ws = length cps end.

(** Limits of the implementation: compiled dimensions; no knot below -1. *)
Definition supported (limit : nat) (degs : list Z) (kvs : option (list (list Qc)))
    (cps : list (list Qc)) : Prop :=
  length degs <= limit /\
  match kvs with
  | None => Forall (fun p => length p <= limit) cps
  | Some kvs => Forall (Forall (fun k => (qc (-1) 1 <= k)%Qc)) kvs
  end.

(** The properties a class takes, all given. *)
Definition complete (c : cls) (i : inputs) (degs : list Z) (kvs : option (list (list Qc)))
    (cps : list (list Qc)) (ws : option (list Qc)) : Prop :=
  in_deg i = Some degs /\ in_cps i = Some cps /\
  match c with
  | CBezier => kvs = None /\ ws = None
  | CRationalBezier => kvs = None /\ ws <> None /\ in_ws i = ws
  | CBSpline => kvs <> None /\ in_kvs i = kvs /\ ws = None
  | CNurbs => kvs <> None /\ in_kvs i = kvs /\ ws <> None /\ in_ws i = ws
  end.

(** A core has the given properties. *)
Definition has_properties (s : spline) (degs : list Z) (kvs : option (list (list Qc)))
    (cps : list (list Qc)) (ws : option (list Qc)) : Prop :=
  map (fun a => Z.of_nat (ax_degree a)) (sp_axes s) = degs /\
  match kvs with
  | None => Forall (fun a => exists p, a = BezierAxis p) (sp_axes s)
  | Some kvs => Forall2 (fun a kv => exists p, a = KnotAxis p kv) (sp_axes s) kvs
  end /\
  sp_cps s = cps /\ sp_weights s = ws.

(** The values of the properties the user reads. *)
Definition reads (st : state) :=
  (fst (get_degrees st), fst (get_kvs st), fst (get_cps st), fst (get_ws st), fst (get_mi st)).

(** Reading a property gives what the core has. *)
Definition degrees_agree (st : state) (s : spline) : Prop :=
  fst (get_degrees st) = Some (map (fun a => Z.of_nat (ax_degree a)) (sp_axes s)).
Definition knots_agree (st : state) (s : spline) : Prop :=
  exists kvs, fst (get_kvs st) = Some kvs /\
              Forall2 (fun a kv => exists p, a = KnotAxis p kv) (sp_axes s) kvs.
Definition cps_agree (st : state) (s : spline) : Prop := fst (get_cps st) = Some (sp_cps s).
Definition weights_agree (st : state) (s : spline) : Prop := fst (get_ws st) = sp_weights s.
Definition index_agrees (st : state) (s : spline) : Prop := fst (get_mi st) = Some (sp_res s).

(** Core changes that keep the kind of spline. *)
Definition keeps_kind (f : spline -> spline) : Prop :=
  forall s,
    (sp_weights (f s) = None <-> sp_weights s = None) /\
    (sp_axes s <> [] -> sp_axes (f s) <> []) /\
    (Forall (fun a => exists p, a = BezierAxis p) (sp_axes s) ->
     Forall (fun a => exists p, a = BezierAxis p) (sp_axes (f s))) /\
    (Forall (fun a => exists p kv, a = KnotAxis p kv) (sp_axes s) ->
     Forall (fun a => exists p kv, a = KnotAxis p kv) (sp_axes (f s))).
Definition sensible (o : op) : Prop :=
  match o with
  | Mutate f => keeps_kind f
  | EditKvs f => forall k, map (@length Qc) (f k) = map (@length Qc) k
  | _ => True
  end.

(** Knots are edited in place only while no other property was assigned since
    the knot vectors were last assigned or recomputed. *)
Fixpoint attached_edits (detached : bool) (ops : list op) : Prop :=
  match ops with
  | [] => True
  | (SetDegrees _ | SetCps _ | SetWs _) :: ops => attached_edits true ops
  | (SetKvs _ | Mutate _) :: ops => attached_edits false ops
  | EditKvs _ :: ops => detached = false /\ attached_edits detached ops
  | _ :: ops => attached_edits detached ops
  end.

(** Degrees and knot vectors are not assigned after multi_index was read. *)
Fixpoint index_kept (cached : bool) (ops : list op) : Prop :=
  match ops with
  | [] => True
  | ReadMi :: ops => index_kept true ops
  | Mutate _ :: ops => index_kept false ops
  | (SetDegrees _ | SetKvs _) :: ops => cached = false /\ index_kept cached ops
  | _ :: ops => index_kept cached ops
  end.

(** The memory the core uses for its control points is kept alive by [_data]. *)
Definition alive (st : state) : Prop :=
  match s_view st with
  | None => True
  | Some m => exists a, s_cps st = Some a /\ a_mem a = m
  end.

(** [st] is reached from a constructed spline of class [c] by [ops]. *)
Definition reached (limit : nat) (c : cls) (ops : list op) (st : state) : Prop :=
  exists i degs kvs cps ws st0 s0,
    complete c i degs kvs cps ws /\ construct limit c i = Done st0 /\ s_core st0 = Some s0 /\
    Forall sensible ops /\ run limit c st0 ops = Some st.

(** Assignments. *)
Definition is_setter (o : op) : Prop :=
  match o with SetDegrees _ | SetKvs _ | SetCps _ | SetWs _ => True | _ => False end.

(** Operations that go through the weights array. *)
Definition touches_ws (o : op) : Prop := o = ReadWs \/ exists f, o = EditWs f.

(** The constructor makes a core / raises. *)
Definition built (limit : nat) (c : cls) (i : inputs) (s : spline) : Prop :=
  exists st, construct limit c i = Done st /\ s_core st = Some s.
Definition rejected (limit : nat) (c : cls) (i : inputs) : Prop :=
  exists st, construct limit c i = Raised st.

(** A property the class needs is not given. *)
Definition missing (c : cls) (i : inputs) : Prop :=
  in_deg i = None \/ in_cps i = None \/
  (needs_kvs c = true /\ in_kvs i = None) \/ (needs_ws c = true /\ in_ws i = None).
