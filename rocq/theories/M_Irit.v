(** Model of splinepy/io/irit.py on the tokens of a file.

    Text is cut at white space and brackets.  [Real x]: the printed double x, which
    reads back as x and in which no e or p is followed by a digit (Python prints
    exponents with a sign).  Lower and upper case are not distinguished (load lowers
    everything).  expand_tabs and strip_comments leave exported files as they are. *)
From Coq Require Import List Arith ZArith Bool QArith Qcanon.
From Verif Require Import Base BaseQc S_Value M_Core M_Files.
Import ListNotations.
Local Open Scope list_scope.
Local Open Scope nat_scope.

Inductive word := WObject | WCurve | WSurface | WTrivar | WMultivar | WBezier | WBspline | WKv.
Inductive tok := Open | Close | Word (w : word) | Int (n : Z) | Real (x : Qc) | Dim (rational : bool) (n : nat).

(** * export, irit.py 160-257 *)

Definition para_key (n : nat) : word :=
  match n with 1 => WCurve | 2 => WSurface | 3 => WTrivar | _ => WMultivar end.
Definition bezier_base (c : option cls) : bool :=
  match c with Some CBezier | Some CRationalBezier => true | _ => false end.
Definition bspline_base (c : option cls) : bool :=
  match c with Some CBSpline | Some CNurbs => true | _ => false end.

Definition bracket (l : list tok) : list tok := Open :: l ++ [Close].
(** 223-247: rows of weights and weighted control points *)
Definition weighted (s : spline) : list (list Qc) :=
  match sp_weights s with
  | Some w => map (fun wp => fst wp :: map (fun x => (fst wp * x)%Qc) (snd wp)) (combine w (sp_cps s))
  | None => sp_cps s
  end.
Definition irit_spline (o : object) : list tok :=
  let s := o_core o in
  [Open; Word (para_key (length (sp_axes s)))] ++
  (if bezier_base (o_cls o) then [Word WBezier] else []) ++
  (if bspline_base (o_cls o) then Word WBspline :: map (fun n => Int (Z.of_nat n)) (sp_res s) else []) ++
  map (fun d => Int (d + 1)%Z) (core_degrees s) ++
  [Dim (match sp_weights s with Some _ => true | None => false end) (dim_of (sp_cps s))] ++
  (if bspline_base (o_cls o)
   then flat_map (fun kv => bracket (Word WKv :: map Real kv)) (core_kvs s) else []) ++
  flat_map (fun p => bracket (map Real p)) (weighted s) ++
  [Close].
Definition export_irit (l : list object) : list tok :=
  [Open; Word WObject] ++ flat_map irit_spline l ++ [Close].

(** * load, irit.py 17-158 *)

(** re.split at the key words bspline and bezier: the text before the first one, then
    key words ([true]: bspline) with the text up to the next. *)
Fixpoint chunks (l : list tok) : list tok * list (bool * list tok) :=
  match l with
  | [] => ([], [])
  | t :: l =>
      let '(cur, rest) := chunks l in
      match t with
      | Word WBspline => ([], (true, cur) :: rest)
      | Word WBezier => ([], (false, cur) :: rest)
      | _ => (t :: cur, rest)
      end
  end.
(** 67: the text before the first two closing brackets in a row, and one bracket. *)
Fixpoint cut (l : list tok) : list tok :=
  match l with
  | [] => [Close]
  | t :: l => match t, l with
              | Close, Close :: _ => [Close]
              | _, _ => t :: cut l
              end
  end.
(** First digit. *)
Fixpoint lead (fuel n : nat) : nat :=
  match fuel with
  | 0 => n
  | S fuel => if n <? 10 then n else lead fuel (n / 10)
  end.
(** 70-83: the text around (e|p) and a digit, which must occur once.  Further digits
    of the dimension are left in front of the following text and not read. *)
Fixpoint has_dim (l : list tok) : bool :=
  match l with [] => false | Dim _ _ :: _ => true | _ :: l => has_dim l end.
Fixpoint at_dim (l : list tok) : option (list tok * (bool * nat) * list tok) :=
  match l with
  | [] => None
  | Dim r n :: l => if has_dim l then None else Some ([], (r, lead n n), l)
  | t :: l => option_map (fun x => (t :: fst (fst x), snd (fst x), snd x)) (at_dim l)
  end.
Definition to_ints (l : list tok) : option (list Z) :=
  all_some (map (fun t => match t with Int n => Some n | _ => None end) l).
Definition to_reals (l : list tok) : option (list Qc) :=
  all_some (map (fun t => match t with Real x => Some x | _ => None end) l).

(** re.findall of "[ ... ]", shortest matches; [cur]: read since the opening bracket. *)
Fixpoint groups (cur : option (list tok)) (l : list tok) : list (list tok) :=
  match l with
  | [] => []
  | t :: l =>
      match t, cur with
      | Open, None => groups (Some []) l
      | Close, Some c => c :: groups None l
      | _, None => groups None l
      | _, Some c => groups (Some (c ++ [t])) l
      end
  end.
Definition is_kv (t : tok) : bool := match t with Word WKv => true | _ => false end.
(** s.split("kv")[1] *)
Fixpoint until_kv (l : list tok) : list tok :=
  match l with [] => [] | t :: l => if is_kv t then [] else t :: until_kv l end.
Fixpoint after_kv (l : list tok) : list tok :=
  match l with [] => [] | t :: l => if is_kv t then until_kv l else after_kv l end.

Definition zprod (l : list Z) : Z := fold_right Z.mul 1%Z l.

(** 62-156 for one spline; [None] = exception. *)
Definition irit_load_one (limit : nat) (d : bool * list tok) : option object :=
  match at_dim (cut (snd d)) with
  | None => None
  | Some (front, (rational, dim), back) =>
      match to_ints front with
      | None => None
      | Some deg_info =>
          let half := length deg_info / 2 in
          let orders := if fst d then skipn half deg_info else deg_info in
          let n_ctps := if fst d then zprod (firstn half deg_info) else zprod orders in
          let gs := groups None back in
          match to_reals (concat (filter (fun g => negb (existsb is_kv g)) gs)) with
          | None => None
          | Some numbers =>
              match reshape (if rational then dim + 1 else dim) numbers with
              | None => None
              | Some rows =>
                  if negb (Z.of_nat (length rows) =? n_ctps)%Z then None
                  else
                    let w := if rational then Some (map (hd 0%Qc) rows) else None in
                    let p := if rational then map (fun r => map (fun x => (x / hd 0%Qc r)%Qc) (tl r)) rows
                             else rows in
                    let degs := map (fun o => (o - 1)%Z) orders in
                    let kv_strings := map after_kv (filter (existsb is_kv) gs) in
                    match (if fst d
                           then if length kv_strings =? length orders
                                then option_map Some (all_some (map to_reals kv_strings)) else None
                           else Some None) with
                    | None => None
                    | Some k => option_map (fun s => Object (Some (name_of s)) s) (generic limit degs k p w)
                    end
              end
          end
      end
  end.
Definition load_irit (limit : nat) (f : list tok) : option (list object) :=
  all_some (map (irit_load_one limit) (snd (chunks f))).
