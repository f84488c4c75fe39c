(** Model of splinepy/microstructure/microstructure.py: tiling and closing
    tiles.  Knots are exact numbers.  The deformation function enters through
    its axes, knot insertion through M_Knots.insert_knots around the library's
    insertion [ins] (by degree). *)
From Coq Require Import String List Arith ZArith QArith Qcanon.
From Verif Require Import Base BaseRadix BaseQc S_Spline S_Value M_Bezier M_Knots M_Elevate.
Import ListNotations.
Local Open Scope string_scope.
Local Open Scope list_scope.
Local Open Scope nat_scope.

(** 269-279, one axis: ukv[i-1] + j * inv_t * (ukv[i] - ukv[i-1]) for
    j in range(1, t); [None]: division by zero. *)
Fixpoint span_wise_from (t : Z) (a : Qc) (ukv : list Qc) : list Qc :=
  match ukv with
  | [] => []
  | b :: ukv =>
      map (fun j => (a + inj j * (1 / zq t) * (b - a))%Qc) (seq 1 (Z.to_nat t - 1)) ++ span_wise_from t b ukv
  end.
Definition span_wise_knots (t : Z) (ukv : list Qc) : option (list Qc) :=
  if (t =? 0)%Z then None
  else Some (match ukv with [] => [] | a :: ukv => span_wise_from t a ukv end).

(** np.argmax: first position of a largest entry; [None] for an empty array. *)
Fixpoint argmax (l : list Qc) : option nat :=
  match l with
  | [] => None
  | x :: l =>
      match argmax l with
      | None => Some 0
      | Some i => if qltb x (nth i l 0%Qc) then Some (S i) else Some 0
      end
  end.
(** 299-306: hand out [steps] knots, one at a time, to the span with the largest
    measure.  Per span: number of knots, measure. *)
Fixpoint hand_out (steps : nat) (n_k_span : list nat) (measure : list Qc) : option (list nat) :=
  match steps with
  | 0 => Some n_k_span
  | S steps =>
      match argmax measure with
      | None => None
      | Some i =>
          let n := nth i n_k_span 0 + 1 in
          hand_out steps (set_nth n_k_span i n)
            (set_nth measure i (nth i measure 0%Qc * (inj n / inj (n + 1)))%Qc)
      end
  end.
(** np.diff *)
Fixpoint diff (l : list Qc) : list Qc :=
  match l with
  | a :: (b :: _) as r => (b - a)%Qc :: diff r
  | _ => []
  end.
(** 308-312: np.linspace(ukv[i], ukv[i + 1], nks + 2)[1:-1] *)
Fixpoint spread_from (a : Qc) (ukv : list Qc) (ns : list nat) : list Qc :=
  match ukv, ns with
  | b :: ukv, n :: ns =>
      map (fun j => (a + inj j * ((b - a) / inj (n + 1)))%Qc) (seq 1 n) ++ spread_from b ukv ns
  | _, _ => []
  end.
Definition spread (ukv : list Qc) (ns : list nat) : list Qc :=
  match ukv with [] => [] | a :: ukv => spread_from a ukv ns end.

(** 245-315.  Result: the list additional_knots or an exception, and the tiling
    afterwards (self.tiling[i_pd] = n_current_spans, 297). *)
Fixpoint additional_span_wise (tiling : list Z) (ukvs : list (list Qc)) : option (list (list Qc)) :=
  match tiling, ukvs with
  | t :: tiling, ukv :: ukvs =>
      match span_wise_knots t ukv with
      | None => None
      | Some new =>
          match additional_span_wise tiling ukvs with
          | None => None
          | Some r => Some (new :: r)
          end
      end
  | _, _ => Some []
  end.
Fixpoint additional_global (tiling : list Z) (ukvs : list (list Qc)) : option (list (list Qc)) * list Z :=
  match tiling, ukvs with
  | t :: tiling, ukv :: ukvs =>
      let n_spans := (Z.of_nat (length ukv) - 1)%Z in
      if (t =? n_spans)%Z then
        let r := additional_global tiling ukvs in (fst r, t :: snd r)
      else if (t <? n_spans)%Z then
        let r := additional_global tiling ukvs in (fst r, n_spans :: snd r)
      else
        match hand_out (Z.to_nat (t - n_spans)) (repeat 0 (length ukv - 1)) (diff ukv) with
        | None => (None, t :: tiling)
        | Some ns =>
            let r := additional_global tiling ukvs in
            (option_map (cons (spread ukv ns)) (fst r), t :: snd r)
        end
  | _, _ => (Some [], tiling)
  end.

Inductive tiled := TilingError | Tiled (axes : list paxis).

Section Insert.
Variables (ins : nat -> list Qc -> Qc -> nat -> list Qc) (epsk epsd : Qc).
(** insert_knots on axis k of the copy, see M_Knots. *)
Definition insert_axis (a : paxis) (new : list Qc) : option paxis :=
  match a with
  | BezierAxis _ => None
  | KnotAxis p kv =>
      match insert_knots (guarded_insert (ins p) p) epsd kv kv new with
      | Inserted kv' _ => Some (KnotAxis p kv')
      | _ => None
      end
  end.
(** 366-377: the i-th list goes to axis i. *)
Fixpoint insert_all (axes : list paxis) (knots : list (list Qc)) : option (list paxis) :=
  match axes, knots with
  | a :: axes, new :: knots =>
      match insert_axis a new with
      | None => None
      | Some a' => option_map (cons a') (insert_all axes knots)
      end
  | _, _ => Some axes
  end.

(** 353-377: the copy with knot vectors (.nurbs / .bspline), then the knots;
    additional_knots[0] of an empty list is an IndexError.
    Second component: the tiling afterwards. *)
Definition tile (knot_span_wise : bool) (axes : list paxis) (tiling : list Z) : tiled * list Z :=
  let ukvs := map (axis_unique epsk) axes in
  let r := if knot_span_wise then (additional_span_wise tiling ukvs, tiling) else additional_global tiling ukvs in
  (match fst r with
   | None | Some [] => TilingError
   | Some knots =>
       match insert_all (map with_knots axes) knots with
       | None => TilingError
       | Some axes' => Tiled axes'
       end
   end, snd r).

(** 416-418 *)
Definition element_resolutions (axes : list paxis) : list nat :=
  map (fun a => length (axis_unique epsk a) - 1) axes.
End Insert.

(** 462-487: is a closed structure requested, along which axis?  A name other
    than x, y, z gives None >= int. *)
Inductive closing := Open | Along (axis : nat) | ClosingValueError | ClosingTypeError.
Definition closing_axis (closing_face : option string) (has_closing_tile : bool) (para_dim : nat) : closing :=
  match closing_face with
  | None => Open
  | Some c =>
      if negb has_closing_tile then ClosingValueError
      else
        match (if c =? "x" then Some 0 else if c =? "y" then Some 1 else if c =? "z" then Some 2 else None)%string with
        | None => ClosingTypeError
        | Some k => if para_dim <=? k then ClosingValueError else Along k
        end
  end.

(** utils/data.py 346-397 for arrays np.arange(er): the rows, first axis
    fastest. *)
Fixpoint cartesian (res : list nat) : list (list nat) :=
  match res with
  | [] => [[]]
  | r :: res => flat_map (fun row => map (fun i => i :: row) (seq 0 r)) (cartesian res)
  end.

(** 571-584: closure of patch i_patch. *)
Inductive closure := NoClosure | MinClosure | MaxClosure.
Definition face_closure (res : list nat) (axis i_patch : nat) : option closure :=
  match nth_error (cartesian res) i_patch with
  | None => None                                          (* IndexError *)
  | Some row =>
      let index := nth axis row 0 in
      Some (if index =? 0 then MinClosure
            else if index + 1 =? nth axis res 0 then MaxClosure else NoClosure)
  end.
