(** Model of splinepy/io/cats.py.

    Files are trees of elements.  Texts are cut at white space, so that the options for
    line breaks and indentation make no difference.  [TReal x]: the printed double x,
    which reads back as x.  [reparse]: what ElementTree reads from what it has written.
    [None] = exception. *)
From Coq Require Import String List Arith ZArith Bool QArith Qcanon.
From Verif Require Import Base BaseQc S_Value M_Core M_Files M_Mfem M_Gismo.
Import ListNotations.
Local Open Scope string_scope.
Local Open Scope list_scope.
Local Open Scope nat_scope.

Inductive tok := TInt (z : Z) | TReal (x : Qc) | TName (s : string).
Inductive xml := Comment | Elem (tag : string) (attributes : list (string * list tok)) (text : list tok) (children : list xml).

(** ET.parse(...) of ET.tostring(...): comments are dropped. *)
Fixpoint reparse (x : xml) : xml :=
  match x with
  | Comment => Comment
  | Elem t a s c => Elem t a s (flat_map (fun y => match y with Comment => [] | _ => [reparse y] end) c)
  end.

(** * export, cats.py 176-324 *)

(** 237-242.  [None]: the generic class Spline has neither nurbs nor bspline. *)
Definition patch_of (make_rational : bool) (o : object) : option spline :=
  match o_cls o with
  | None => None
  | Some _ => Some (if make_rational || match sp_weights (o_core o) with Some _ => true | None => false end
                    then as_nurbs (o_core o) else with_knots (o_core o))
  end.
(** 268-275 *)
Definition variable_names (dim : nat) : list string :=
  firstn dim (["x"; "y"; "z"; "t"] ++ map (fun i => "x" ++ dec i)%string (seq 4 (dim - 4))).
Definition nat_text (n : nat) : list tok := [TInt (Z.of_nat n)].
(** 244-314 *)
Definition patch_element (s : spline) : xml :=
  let dim := dim_of (sp_cps s) in
  let para_dim := length (sp_axes s) in
  Elem "SplineEntry"
    [("splDim", nat_text para_dim); ("spaceDim", nat_text dim); ("numOfCntrlPntVars", nat_text dim);
     ("numCntrlPnts", nat_text (length (sp_cps s))); ("numOfEleVars", nat_text 0); ("closed", repeat (TInt 0) para_dim)]
    []
    ([Elem "cntrlPntVarNames" [] (map TName (variable_names dim)) [];
      Elem "cntrlPntVars" [] (map TReal (concat (sp_cps s))) [];
      Elem "deg" [] (map TInt (core_degrees s)) [];
      Elem "kntVecs" [] [] (map (fun kv => Elem "kntVec" [] (map TReal kv) []) (core_kvs s))] ++
     match sp_weights s with Some w => [Elem "wght" [] (map TReal w) []] | None => [] end).
(** 212-226 *)
Definition export_cats (make_rational : bool) (l : list object) : option xml :=
  option_map (fun ps => Elem "SplineList" [("SplineType", nat_text 1); ("NumberOfSplines", nat_text (length l))] []
                             (Comment :: map patch_element ps))
    (all_some (map (patch_of make_rational) l)).

(** * load, cats.py 41-173 *)

(** python: k in s *)
Definition contains (k s : string) : bool := match index 0 k s with Some _ => true | None => false end.
(** np.fromstring(text, sep=" "), which stops at what is not a number; with dtype=int64. *)
Fixpoint reals_of (l : list tok) : list Qc :=
  match l with TInt z :: l => Q2Qc (inject_Z z) :: reals_of l | TReal x :: l => x :: reals_of l | _ => [] end.
Fixpoint ints_of (l : list tok) : list Z := match l with TInt z :: l => z :: ints_of l | _ => [] end.
(** int(attrib.get(k, default)) *)
Definition int_attribute (a : list (string * list tok)) (k : string) (default : Z) : option Z :=
  match get a k with None => Some default | Some [TInt z] => Some z | _ => None end.
(** 73-76: any() stops at the first 1. *)
Fixpoint any_one (l : list tok) : option bool :=
  match l with
  | [] => Some false
  | TInt z :: l => if (z =? 1)%Z then Some true else any_one l
  | _ => None
  end.

Record dict := Dict { d_cps : option (list (list Qc)); d_deg : option (list Z); d_ws : option (list Qc); d_kvs : option (list (list Qc)) }.

(** array[:, :stop] of rows *)
Definition columns (stop : Z) (m : list (list Qc)) : list (list Qc) :=
  map (fun r => firstn (Z.to_nat (if (stop <? 0)%Z then Z.of_nat (length r) + stop else stop)%Z) r) m.
(** A text that is not there is None: None.replace raises. *)
Definition with_text {A} (t : list tok) (r : option A) : option A := match t with [] => None | _ => r end.
(** 126-137 *)
Definition read_knots (x : xml) : option (list Qc) :=
  match x with Comment => None | Elem _ _ t _ => with_text t (Some (reals_of t)) end.
(** 95-141 for one entry *)
Definition read_info (dim para_dim ctps_dim : Z) (d : dict) (x : xml) : option dict :=
  match x with
  | Comment => None
  | Elem tag _ t c =>
      if contains "cntrlPntVarNames" tag then with_text t (Some d)
      else if contains "cntrlPntVars" tag
      then with_text t (if (ctps_dim <=? 0)%Z then None
                        else option_map (fun m => Dict (Some (columns dim m)) (d_deg d) (d_ws d) (d_kvs d))
                               (reshape (Z.to_nat ctps_dim) (reals_of t)))
      else if contains "deg" tag
      then with_text t (if (Z.of_nat (length (ints_of t)) =? para_dim)%Z
                        then Some (Dict (d_cps d) (Some (ints_of t)) (d_ws d) (d_kvs d)) else None)
      else if contains "wght" tag then with_text t (Some (Dict (d_cps d) (d_deg d) (Some (reals_of t)) (d_kvs d)))
      else if contains "kntVecs" tag
      then option_map (fun k => Dict (d_cps d) (d_deg d) (d_ws d) (Some k)) (all_some (map read_knots c))
      else Some d
  end.
Fixpoint read_infos (dim para_dim ctps_dim : Z) (d : dict) (l : list xml) : option dict :=
  match l with
  | [] => Some d
  | x :: l => match read_info dim para_dim ctps_dim d x with None => None | Some d => read_infos dim para_dim ctps_dim d l end
  end.
(** 57-145 *)
Definition read_spline (x : xml) : option dict :=
  match x with
  | Comment => None
  | Elem _ a _ c =>
      match int_attribute a "spaceDim" (-1), int_attribute a "splDim" (-1), int_attribute a "numOfCntrlPntVars" (-1),
            int_attribute a "numCntrlPnts" (-1), any_one (match get a "closed" with Some t => t | None => [] end) with
      | Some dim, Some para_dim, Some ctps_dim, Some n_ctps, Some false =>
          if existsb (fun z => (z =? -1)%Z) [dim; para_dim; ctps_dim; n_ctps] then None
          else read_infos dim para_dim ctps_dim (Dict None None None None) c
      | _, _, _, _, _ => None
      end
  end.
(** ioutils.py 134-151; the name of an incomplete spline raises. *)
Definition dict_to_spline (limit : nat) (d : dict) : option object :=
  match d_deg d, d_cps d with
  | Some degs, Some cps => option_map (fun s => Object (Some (name_of s)) s) (generic limit degs (d_kvs d) cps (d_ws d))
  | _, _ => None
  end.
(** 147-173 *)
Definition load_cats (limit : nat) (x : xml) : option (list object) :=
  match x with
  | Comment => None
  | Elem tag a _ c =>
      if negb (prefix "SplineList" tag) then Some []
      else if negb (match get a "SplineType" with None => true | Some [TInt z] => (z =? 1)%Z | _ => false end) then None
      else match int_attribute a "NumberOfSplines" 0, all_some (map read_spline c) with
           | Some n, Some ds => if (Z.of_nat (length ds) =? n)%Z then all_some (map (dict_to_spline limit) ds) else None
           | _, _ => None
           end
  end.
