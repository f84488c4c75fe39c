(** Model of splinepy/io/npz.py and splinepy/io/json.py.

    A spline object is its class and its core.  Files are dictionaries from names to
    values: np.savez / np.load and json.dumps / json.load give back what was written
    (floats are written exactly).  show_options are left out. *)
From Coq Require Import String List Arith ZArith Bool QArith Qcanon.
From Coq Require Import DecimalNat DecimalString.
From Verif Require Import Base BaseQc S_Value M_Core.
Import ListNotations.
Local Open Scope string_scope.
Local Open Scope list_scope.
Local Open Scope nat_scope.

(** Class of an object; [None]: the generic class Spline. *)
Record object := Object { o_cls : option cls; o_core : spline }.

(** SplinepySplineName *)
Definition name_of (s : spline) : cls :=
  match has_kvs s, sp_weights s with
  | false, None => CBezier
  | false, Some _ => CRationalBezier
  | true, None => CBSpline
  | true, Some _ => CNurbs
  end.

(** Python dict: a later assignment wins. *)
Definition get {V} (d : list (string * V)) (k : string) : option V :=
  option_map snd (find (fun e => String.eqb (fst e) k) (rev d)).

(** str(i) *)
Definition dec (n : nat) : string := NilEmpty.string_of_uint (Nat.to_uint n).

(** * npz *)

Inductive npval := NCount (n : nat) | NInts (l : list Z) | NReals (l : list Qc) | NMat (m : list (list Qc)).

(** f"spline_{i}_..." *)
Definition npz_key (i : nat) (name : string) : string := ("spline_" ++ dec i ++ "_" ++ name)%string.
Definition kv_name (j : nat) : string := ("knot_vectors_" ++ dec j)%string.

(** npz.py 88-106 *)
Definition npz_spline (i : nat) (s : spline) : list (string * npval) :=
  [(npz_key i "degrees", NInts (core_degrees s)); (npz_key i "control_points", NMat (sp_cps s))] ++
  match sp_weights s with Some w => [(npz_key i "weights", NReals w)] | None => [] end ++
  (if has_kvs s
   then map (fun j => (npz_key i (kv_name j), NReals (nth j (core_kvs s) []))) (seq 0 (length (sp_axes s)))
   else []).
(** npz.py 79-113 *)
Definition export_npz (l : list object) : list (string * npval) :=
  ("number_of_splines", NCount (length l)) ::
  flat_map (fun io => npz_spline (fst io) (o_core (snd io))) (combine (seq 0 (length l)) l).

(** The generic class: the setters in the order weights, control points, knot
    vectors, degrees (spline.py 420-432), then NewCore with what is given. *)
Definition generic (limit : nat) (d : list Z) (k : option (list (list Qc))) (p : list (list Qc))
  (w : option (list Qc)) : option spline :=
  if match w with Some w => negb (length w =? length p) | None => false end then None
  else if negb (rect p) then None
  else if match k with Some k => negb (length k =? length d) | None => false end then None
  else new_core limit d k p w.

Definition ints (v : option npval) : option (list Z) := match v with Some (NInts l) => Some l | _ => None end.
Definition reals (v : option npval) : option (list Qc) := match v with Some (NReals l) => Some l | _ => None end.
Definition mat (v : option npval) : option (list (list Qc)) := match v with Some (NMat m) => Some m | _ => None end.

(** npz.py 36-58 and ioutils.py 134-151. [None] = exception. *)
Definition npz_load_one (limit : nat) (f : list (string * npval)) (i : nat) : option object :=
  match mat (get f (npz_key i "control_points")), ints (get f (npz_key i "degrees")) with
  | Some p, Some d =>
      match (match get f (npz_key i "weights") with
             | None => Some None
             | v => option_map Some (reals v)
             end),
            (match get f (npz_key i (kv_name 0)) with
             | None => Some None
             | _ => option_map Some
                      (all_some (map (fun j => reals (get f (npz_key i (kv_name j)))) (seq 0 (length d))))
             end) with
      | Some w, Some k => option_map (fun s => Object (Some (name_of s)) s) (generic limit d k p w)
      | _, _ => None
      end
  | _, _ => None
  end.
Definition load_npz (limit : nat) (f : list (string * npval)) : option (list object) :=
  match get f "number_of_splines" with
  | Some (NCount n) => all_some (map (npz_load_one limit f) (seq 0 n))
  | _ => None
  end.

(** * json *)

(** Values; [JB64 l]: the base64 text of the bytes of the doubles [l]. *)
Inductive jval :=
| JInts (l : list Z) | JMat (m : list (list Qc)) | JB64 (l : list Qc) | JType (s : string) | JInt (n : nat).
Record jfile := JFile { j_base64 : bool; j_splines : list (list (string * jval)) }.

Definition column (w : list Qc) : list (list Qc) := map (fun x => [x]) w.

(** CurrentCoreProperties (py_spline.cpp 257-310) as lists, spline.py 1610-1620. *)
Definition todict (s : spline) : list (string * jval) :=
  [("degrees", JInts (core_degrees s)); ("control_points", JMat (sp_cps s))] ++
  (if has_kvs s then [("knot_vectors", JMat (core_kvs s))] else []) ++
  match sp_weights s with Some w => [("weights", JMat (column w))] | None => [] end.

Definition type_name (c : option cls) : string :=
  match c with
  | None => "Spline"
  | Some CBezier => "Bezier"
  | Some CRationalBezier => "RationalBezier"
  | Some CBSpline => "BSpline"
  | Some CNurbs => "NURBS"
  end.
Definition class_named (s : string) : option cls :=
  find (fun c => String.eqb s (type_name (Some c))) [CBezier; CRationalBezier; CBSpline; CNurbs].

(** required_properties contains "weights", spline.py 435-458: the union of all
    properties for the generic class. *)
Definition wants_ws (c : option cls) : bool := match c with None => true | Some c => needs_ws c end.

(** base64 of np.array(dict[key]); [None] = KeyError. *)
Definition encode (d : list (string * jval)) (k : string) : option (list (string * jval)) :=
  match get d k with
  | Some (JMat m) => Some (d ++ [(k, JB64 (concat m))])
  | _ => None
  end.
(** json.py 113-135 *)
Definition json_spline (b64 : bool) (o : object) : option (list (string * jval)) :=
  let d := todict (o_core o) ++
           [("SplineType", JType (type_name (o_cls o)));
            ("dim", JInt (dim_of (sp_cps (o_core o)))); ("para_dim", JInt (length (sp_axes (o_core o))))] in
  if b64
  then match encode d "control_points" with
       | None => None
       | Some d => if wants_ws (o_cls o) then encode d "weights" else Some d
       end
  else Some d.
(** json.py 70-141 *)
Definition export_json (b64 : bool) (l : list object) : option jfile :=
  option_map (JFile b64) (all_some (map (json_spline b64) l)).

(** array.reshape((-1, n)) *)
Fixpoint rows {A} (fuel n : nat) (l : list A) : list (list A) :=
  match fuel, l with
  | S fuel, _ :: _ => firstn n l :: rows fuel n (skipn n l)
  | _, _ => []
  end.
Definition reshape {A} (n : nat) (l : list A) : option (list (list A)) :=
  if n =? 0 then None
  else if length l mod n =? 0 then Some (rows (length l) n l) else None.

(** json.py 38-48 for one key; [Some None]: the key is absent. *)
Definition read_mat (b64 : bool) (n : nat) (v : option jval) : option (option (list (list Qc))) :=
  match v, b64 with
  | None, _ => Some None
  | Some (JMat m), false => Some (Some m)
  | Some (JB64 l), true => option_map Some (reshape n l)
  | _, _ => None
  end.
(** The weights setter takes (n, 1) arrays. *)
Definition uncolumn (m : list (list Qc)) : option (list Qc) :=
  all_some (map (fun r => match r with [x] => Some x | _ => None end) m).

(** json.py 36-56. *)
Definition json_load_one (limit : nat) (b64 : bool) (d : list (string * jval)) : option object :=
  match get d "dim", get d "SplineType", get d "degrees" with
  | Some (JInt dim), Some (JType t), Some (JInts degs) =>
      match class_named t, read_mat b64 dim (get d "control_points"),
            read_mat b64 1 (get d "weights") with
      | Some c, Some (Some p), Some w =>
          let k := match get d "knot_vectors" with Some (JMat k) => Some k | _ => None end in
          let w := match w with Some w => uncolumn w | None => None end in
          if (needs_kvs c && match k with None => true | _ => false end)
             || (needs_ws c && match w with None => true | _ => false end)
          then None                                                    (* jbz[prop] *)
          else match construct limit c (Inputs (Some degs) k (Some p) w) with
               | Done st => option_map (Object (Some c)) (s_core st)
               | Raised _ => None
               end
      | _, _, _ => None
      end
  | _, _, _ => None
  end.
Definition load_json (limit : nat) (f : jfile) : option (list object) :=
  all_some (map (json_load_one limit (j_base64 f)) (j_splines f)).
