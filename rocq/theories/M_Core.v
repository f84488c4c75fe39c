(** Model of the property handling of splines: creating the core
    (src/py/py_spline.cpp NewCore, src/splines/splinepy_base.cpp
    SplinepyCreate...), the python side cache [_data], the property getters and
    setters and [_safe_new_core] (splinepy/spline.py).

    The core is a [spline] of S_Value.  Not modelled: the generic class
    [Spline], dtype conversion, int overflow, assigning an array to itself
    (spline.py 321-322), and the homogeneous storage of rational control points
    (that is M_Coords). *)
From Coq Require Import List Arith ZArith Bool QArith Qcanon.
From Verif Require Import Base BaseQc S_Value.
Import ListNotations.
Local Open Scope nat_scope.

(** The four spline classes with their required properties, spline.py 32-37. *)
Inductive cls := CBezier | CRationalBezier | CBSpline | CNurbs.
Definition needs_kvs (c : cls) : bool :=
  match c with CBSpline | CNurbs => true | _ => false end.
Definition needs_ws (c : cls) : bool :=
  match c with CRationalBezier | CNurbs => true | _ => false end.

(** * Core creation *)

(** py_spline.cpp 106-131: knots of one dimension; [prev] starts at -1. *)
Fixpoint knots_ok (prev : Qc) (kv : list Qc) : bool :=
  match kv with
  | [] => true
  | k :: kv => negb (qltb 0 (prev - k)) && knots_ok k kv
  end.

(** py_spline.cpp 91-155: the loop over the parametric dimensions.  [None] =
    an error: negative degree, knot_vectors too short a list (python
    IndexError), decreasing knots, not enough knots. *)
Fixpoint check_kvs (degs : list Z) (kvs : list (list Qc)) (required : Z) : option Z :=
  match degs with
  | [] => Some required
  | d :: degs =>
      if (d <? 0)%Z then None else
      match kvs with
      | [] => None
      | kv :: kvs =>
          let nknots := Z.of_nat (length kv) in
          if negb (knots_ok (qc (-1) 1) kv) then None
          else if (nknots <? 2 * (d + 1))%Z then None
          else check_kvs degs kvs (required * (nknots - d - 1))%Z
      end
  end.

(** py_spline.cpp 177-189: the same without knot vectors. *)
Fixpoint check_degrees (degs : list Z) (required : Z) : option Z :=
  match degs with
  | [] => Some required
  | d :: degs => if (d <? 0)%Z then None else check_degrees degs (required * (d + 1))%Z
  end.

(** Axes of the created spline. *)
Fixpoint make_axes (degs : list Z) (kvs : option (list (list Qc))) : list paxis :=
  match degs with
  | [] => []
  | d :: degs =>
      match kvs with
      | None => BezierAxis (Z.to_nat d) :: make_axes degs None
      | Some kvs => KnotAxis (Z.to_nat d) (hd [] kvs) :: make_axes degs (Some (tl kvs))
      end
  end.

(** Physical dimension, cp_array.shape(1) (line 75). *)
Definition dim_of (cps : list (list Qc)) : nat := length (hd [] cps).

(** NewCore once degrees and control points are given, py_spline.cpp 64-228, and
    the switches of SplinepyCreate* (splinepy_base.cpp 37-365, create/*.cpp):
    [limit] is 3, or 10 when compiled with SPLINEPY_MORE.  [None] = exception. *)
Definition new_core (limit : nat) (degs : list Z) (kvs : option (list (list Qc)))
    (cps : list (list Qc)) (ws : option (list Qc)) : option spline :=
  let para_dim := length degs in
  let dim := dim_of cps in
  let ncps := Z.of_nat (length cps) in
  if dim =? 0 then None                                               (* 77-80 *)
  else
    match (match kvs with
           | Some kvs => check_kvs degs kvs 1
           | None => check_degrees degs 1
           end) with
    | None => None
    | Some required =>
        if negb (ncps =? required)%Z then None                        (* 158, 193 *)
        else if match ws with
                | Some ws => negb (Z.of_nat (length ws) =? ncps)%Z    (* 207-213 *)
                | None => false
                end then None
        else if (para_dim =? 0) || (limit <? para_dim) then None      (* switches *)
        else if match kvs with None => limit <? dim | Some _ => false end then None
        else Some (Spl (make_axes degs kvs) cps ws)
    end.

(** What the core reports, py_spline.cpp 247-311. *)
Definition core_degrees (s : spline) : list Z :=
  map (fun a => Z.of_nat (ax_degree a)) (sp_axes s).
Definition ax_kv (a : paxis) : list Qc :=
  match a with BezierAxis _ => [] | KnotAxis _ kv => kv end.
Definition has_kvs (s : spline) : bool :=
  match sp_axes s with KnotAxis _ _ :: _ => true | _ => false end.
Definition core_kvs (s : spline) : list (list Qc) := map ax_kv (sp_axes s).

(** * Python state *)

(** A numpy array held in [_data]: is it a PhysicalSpaceArray connected to the
    core, is it writeable, which memory does it use, and its content. *)
Record arr (A : Type) := Arr { a_psa : bool; a_rw : bool; a_mem : nat; a_val : A }.
Arguments Arr {A}. Arguments a_psa {A}. Arguments a_rw {A}.
Arguments a_mem {A}. Arguments a_val {A}.

(** [_data["knot_vectors"]]: a list of arrays, the parameter space of the
    present core, or the parameter space of a core that was replaced since (its
    knots are kept alive by the shared pointer). *)
Inductive kvdata := Own (k : list (list Qc)) | Live | Stale (k : list (list Qc)).

(** A spline object: core, the entries of [_data] used here, the memory a
    BSpline core uses for its control points (bspline.hpp 162-165: a view of the
    array given), and a counter for fresh memory. *)
Record state := St
  { s_core : option spline;
    s_deg : option (list Z);
    s_kvs : option kvdata;
    s_cps : option (arr (list (list Qc)));
    s_ws : option (arr (list Qc));
    s_mi : option (list nat);
    s_view : option nat;
    s_fresh : nat }.

Definition empty : state := St None None None None None None None 0.

(** [_prepare_coordinates], spline.py 183-221.  [.view] of an array that already
    is a PhysicalSpaceArray makes it read-only (data.py 91-95). *)
Definition psa_view {A} (a : arr A) : arr A :=
  Arr true (if a_psa a then false else a_rw a) (a_mem a) (a_val a).

Definition prepare (st : state) : state :=
  match s_core st with
  | None => st                                                        (* 195-196 *)
  | Some c =>
      match sp_weights c with
      | None =>
          let cps := match s_cps st with
                     | Some a => a
                     | None => Arr false true (s_fresh st) (sp_cps c)
                     end in
          St (s_core st) (s_deg st) (s_kvs st) (Some (psa_view cps)) (s_ws st) (s_mi st)
             (s_view st) (S (s_fresh st))
      | Some w =>
          let '(cps, ws) :=
            match s_cps st, s_ws st with
            | Some a, Some b => (a, b)
            | _, _ => (Arr false true (s_fresh st) (sp_cps c),        (* 204-208 *)
                       Arr false true (S (s_fresh st)) w)
            end in
          St (s_core st) (s_deg st) (s_kvs st) (Some (psa_view cps)) (Some (psa_view ws))
             (s_mi st) (s_view st) (S (S (s_fresh st)))
      end
  end.

(** * Getters: value read and new state *)

(** spline.py 755-778 *)
Definition get_degrees (st : state) : option (list Z) * state :=
  match s_deg st, s_core st with
  | Some d, _ => (Some d, st)
  | None, None => (None, st)
  | None, Some c =>
      (Some (core_degrees c),
       St (s_core st) (Some (core_degrees c)) (s_kvs st) (s_cps st) (s_ws st) (s_mi st)
          (s_view st) (s_fresh st))
  end.

Definition set_kvdata (st : state) (k : option kvdata) : state :=
  St (s_core st) (s_deg st) k (s_cps st) (s_ws st) (s_mi st) (s_view st) (s_fresh st).

(** spline.py 816-838 *)
Definition get_kvs (st : state) : option (list (list Qc)) * state :=
  match s_core st with
  | None =>
      (match s_kvs st with Some (Own k) | Some (Stale k) => Some k | _ => None end, st)
  | Some c =>
      if negb (has_kvs c) then (None, st)
      else match s_kvs st with
           | Some Live => (Some (core_kvs c), st)
           | Some (Stale k) => (Some k, st)
           | _ => (Some (core_kvs c), set_kvdata st (Some Live))
           end
  end.

(** spline.py 942-963 *)
Definition is_psa {A} (a : option (arr A)) : bool :=
  match a with Some a => a_psa a | None => false end.
Definition get_cps (st : state) : option (list (list Qc)) * state :=
  let st := if is_psa (s_cps st) then st else prepare st in
  (option_map a_val (s_cps st), st).

(** spline.py 1088-1109 *)
Definition get_ws (st : state) : option (list Qc) * state :=
  let st := if is_psa (s_ws st) then st else prepare st in
  (option_map a_val (s_ws st), st).

(** spline.py 1061-1086: resolutions the cached MultiIndex was made for;
    [None] without core is the exception of control_mesh_resolutions. *)
Definition get_mi (st : state) : option (list nat) * state :=
  match s_mi st, s_core st with
  | Some m, _ => (Some m, st)
  | None, None => (None, st)
  | None, Some c =>
      (Some (sp_res c),
       St (s_core st) (s_deg st) (s_kvs st) (s_cps st) (s_ws st) (Some (sp_res c))
          (s_view st) (s_fresh st))
  end.

(** * Setters *)

Inductive outcome := Done (st : state) | Raised (st : state).

(** NewCore on the cached properties, spline.py 704-724 and py_spline.cpp 49-228.
    The knot vectors are passed by value; the arrays in [_data] are replaced by
    plain views of the same memory before any check (py_spline.cpp 66, 73; the
    weights at 204 after the number of control points was checked).  A parameter
    space in [_data] stays. *)
Definition plain {A} (a : arr A) : arr A := Arr false (a_rw a) (a_mem a) (a_val a).

Definition kv_value (st : state) : option (list (list Qc)) :=
  match s_kvs st with
  | Some (Own k) | Some (Stale k) => Some k
  | Some Live => option_map core_kvs (s_core st)
  | None => None
  end.

Definition new_core_py (limit : nat) (c : cls) (st : state) : outcome :=
  let kvs := if needs_kvs c then kv_value st else None in
  let ws := if needs_ws c then s_ws st else None in
  match s_deg st, s_cps st with
  | Some d, Some p =>
      if (needs_kvs c && match kvs with None => true | _ => false end)
         || (needs_ws c && match ws with None => true | _ => false end)
      then Done st                              (* incomplete: nothing happens *)
      else
        match new_core limit d kvs (a_val p) (option_map a_val ws) with
        | None =>
            Raised (St (s_core st) (s_deg st) (s_kvs st) (Some (plain p)) (s_ws st)
                       (s_mi st) (s_view st) (s_fresh st))
        | Some core =>
            Done (St (Some core) (s_deg st)
                     (match s_kvs st, s_core st with
                      | Some Live, Some old => Some (Stale (core_kvs old))
                      | k, _ => k
                      end)
                     (Some (plain p))
                     (if needs_ws c then option_map plain (s_ws st) else s_ws st)
                     (s_mi st)
                     (match c with CBSpline => Some (a_mem p) | _ => None end)
                     (s_fresh st))
        end
  | _, _ => Done st
  end.

(** spline.py 251-286, without the property [exclude]. *)
Inductive prop := PDegrees | PKvs | PCps | PWs.
Definition safe_new_core (limit : nat) (c : cls) (exclude : prop) (st : state) : outcome :=
  let st :=
    match s_core st with
    | None => st
    | Some _ =>
        let st := match exclude with PDegrees => st | _ => snd (get_degrees st) end in
        let st := if needs_kvs c then match exclude with PKvs => st | _ => snd (get_kvs st) end
                  else st in
        let st := match exclude with PCps => st | _ => snd (get_cps st) end in
        if needs_ws c then match exclude with PWs => st | _ => snd (get_ws st) end else st
    end in
  new_core_py limit c st.

(** spline.py 780-814; [degrees] not None. *)
Definition set_degrees (limit : nat) (c : cls) (st : state) (d : list Z) : outcome :=
  let '(kvs, st) := get_kvs st in
  if match kvs with Some k => negb (length k =? length d) | None => false end
  then Raised st
  else safe_new_core limit c PDegrees
         (St (s_core st) (Some d) (s_kvs st) (s_cps st) (s_ws st) (s_mi st) (s_view st)
             (s_fresh st)).

(** spline.py 840-876 *)
Definition set_kvs (limit : nat) (c : cls) (st : state) (k : list (list Qc)) : outcome :=
  let '(degs, st) := get_degrees st in
  if match degs with Some d => negb (length k =? length d) | None => false end
  then Raised st
  else safe_new_core limit c PKvs (set_kvdata st (Some (Own k))).

(** np.array(..., dtype="float64") of a list of rows of different length raises. *)
Definition rect (cps : list (list Qc)) : bool :=
  forallb (fun r => length r =? dim_of cps) cps.

(** A plain copy of a PhysicalSpaceArray (data.py 87-89), spline.py 339-340. *)
Definition uncouple {A} (fresh : nat) (a : arr A) : arr A :=
  if a_psa a then Arr false true fresh (a_val a) else a.

(** spline.py 965-989 with 289-344. *)
Definition set_cps (limit : nat) (c : cls) (st : state) (cps : list (list Qc)) : outcome :=
  if match s_ws st with Some w => negb (length (a_val w) =? length cps) | None => false end
  then Raised st
  else
    let ws := option_map (uncouple (s_fresh st)) (s_ws st) in
    if negb (rect cps)
    then Raised (St (s_core st) (s_deg st) (s_kvs st) (s_cps st) ws (s_mi st) (s_view st)
                    (S (s_fresh st)))
    else safe_new_core limit c PCps
           (St (s_core st) (s_deg st) (s_kvs st)
               (Some (Arr false true (S (s_fresh st)) cps)) ws (s_mi st) (s_view st)
               (S (S (s_fresh st)))).

(** spline.py 1111-1134 with 289-344. *)
Definition set_ws (limit : nat) (c : cls) (st : state) (w : list Qc) : outcome :=
  if match s_cps st with Some p => negb (length (a_val p) =? length w) | None => false end
  then Raised st
  else
    let cps := option_map (uncouple (s_fresh st)) (s_cps st) in
    safe_new_core limit c PWs
      (St (s_core st) (s_deg st) (s_kvs st) cps
          (Some (Arr false true (S (s_fresh st)) w)) (s_mi st) (s_view st)
          (S (S (s_fresh st)))).

(** * Construction: [__init__], spline.py 404-433 *)

Record inputs := Inputs
  { in_deg : option (list Z); in_kvs : option (list (list Qc));
    in_cps : option (list (list Qc)); in_ws : option (list Qc) }.

Definition and_then (o : outcome) (f : state -> outcome) : outcome :=
  match o with Done st => f st | Raised st => Raised st end.
Definition if_given {A} (x : option A) (f : state -> A -> outcome) (st : state) : outcome :=
  match x with Some x => f st x | None => Done st end.

Definition construct (limit : nat) (c : cls) (i : inputs) : outcome :=
  let o := if_given (in_deg i) (set_degrees limit c) empty in
  let o := if needs_kvs c then and_then o (if_given (in_kvs i) (set_kvs limit c)) else o in
  let o := and_then o (if_given (in_cps i) (set_cps limit c)) in
  if needs_ws c then and_then o (if_given (in_ws i) (set_ws limit c)) else o.

(** * Operations on an existing spline *)

Inductive op :=
| SetDegrees (d : list Z) | SetKvs (k : list (list Qc))
| SetCps (p : list (list Qc)) | SetWs (w : list Qc)
| Mutate (f : spline -> spline)
| EditCps (f : list (list Qc) -> list (list Qc))
| EditWs (f : list Qc -> list Qc)
| EditKvs (f : list (list Qc) -> list (list Qc))
| ReadDegrees | ReadKvs | ReadCps | ReadWs | ReadMi.

Definition with_cps (s : spline) (p : list (list Qc)) : spline :=
  Spl (sp_axes s) p (sp_weights s).
Definition with_ws (s : spline) (w : list Qc) : spline :=
  Spl (sp_axes s) (sp_cps s) (match sp_weights s with Some _ => Some w | None => None end).
Definition ax_with_kv (a : paxis) (kv : list Qc) : paxis :=
  match a with BezierAxis p => BezierAxis p | KnotAxis p _ => KnotAxis p kv end.
Definition with_kvs (s : spline) (k : list (list Qc)) : spline :=
  Spl (map (fun ak => ax_with_kv (fst ak) (snd ak)) (combine (sp_axes s) k))
      (sp_cps s) (sp_weights s).

(** One operation.
    [Mutate f]: insert_knots, remove_knots / reduce_degrees that changed
    something, elevate_degrees: the core changes by [f] and [_data] is cleared
    (bspline.py 121, 317-318, spline.py 1505, 1538-1539); the changed core owns
    its control points.
    [EditCps f], [EditWs f]: in-place edit of the array the getter returns, with
    a shape preserving [f]; the PhysicalSpaceArray mirrors it to the core
    (M_Coords has the details).  Writing a read-only array raises.
    [EditKvs f]: in-place edit of the knots the getter returns, for example
    normalize_knot_vectors (bspline.py 343-345). *)
Definition step (limit : nat) (c : cls) (st : state) (o : op) : outcome :=
  match o with
  | SetDegrees d => set_degrees limit c st d
  | SetKvs k => set_kvs limit c st k
  | SetCps p => set_cps limit c st p
  | SetWs w => set_ws limit c st w
  | Mutate f =>
      match s_core st with
      | None => Raised st
      | Some s => Done (St (Some (f s)) None None None None None None (s_fresh st))
      end
  | EditCps f =>
      let '(_, st) := get_cps st in
      match s_cps st, s_core st with
      | Some a, Some s =>
          if a_rw a
          then Done (St (Some (with_cps s (f (a_val a)))) (s_deg st) (s_kvs st)
                        (Some (Arr (a_psa a) (a_rw a) (a_mem a) (f (a_val a)))) (s_ws st)
                        (s_mi st) (s_view st) (s_fresh st))
          else Raised st
      | _, _ => Raised st
      end
  | EditWs f =>
      let '(_, st) := get_ws st in
      match s_ws st, s_core st with
      | Some a, Some s =>
          if a_rw a
          then Done (St (Some (with_ws s (f (a_val a)))) (s_deg st) (s_kvs st) (s_cps st)
                        (Some (Arr (a_psa a) (a_rw a) (a_mem a) (f (a_val a)))) (s_mi st)
                        (s_view st) (s_fresh st))
          else Raised st
      | _, _ => Raised st
      end
  | EditKvs f =>
      let '(_, st) := get_kvs st in
      match s_kvs st, s_core st with
      | Some Live, Some s =>
          Done (St (Some (with_kvs s (f (core_kvs s)))) (s_deg st) (s_kvs st) (s_cps st)
                   (s_ws st) (s_mi st) (s_view st) (s_fresh st))
      | Some (Stale k), Some _ => Done (set_kvdata st (Some (Stale (f k))))
      | _, _ => Raised st
      end
  | ReadDegrees => Done (snd (get_degrees st))
  | ReadKvs => Done (snd (get_kvs st))
  | ReadCps => Done (snd (get_cps st))
  | ReadWs => Done (snd (get_ws st))
  | ReadMi => Done (snd (get_mi st))
  end.

(** A sequence of operations that all succeed. *)
Fixpoint run (limit : nat) (c : cls) (st : state) (ops : list op) : option state :=
  match ops with
  | [] => Some st
  | o :: ops => match step limit c st o with
                | Done st => run limit c st ops
                | Raised _ => None
                end
  end.
