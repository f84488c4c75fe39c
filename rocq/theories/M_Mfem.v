(** Model of splinepy/io/mfem.py.

    Files are lists of lines without comments and empty lines (make_meaningful,
    next_line).  Numbers read back as they were written: [tolist] prints doubles
    with all digits, the precision argument has no effect on lists. *)
From Coq Require Import List Arith ZArith Bool QArith Qcanon.
From Verif Require Import Base BaseRadix BaseQc M_Numpy M_Grid S_Value M_Core M_Coords M_Files.
Import ListNotations.
Local Open Scope list_scope.
Local Open Scope nat_scope.

(** * Degree of freedom maps *)

(** 1:-1 and -2:0:-1 *)
Definition mid : index := ISlice (Some 1%Z) (Some (-1)%Z) None.
Definition back : index := ISlice (Some (-2)%Z) (Some 0%Z) (Some (-1)%Z).
Definition lo : index := IInt 0.
Definition hi : index := IInt (-1).

(** The parts of to_m in order; [true]: reversed by [::-1].
    _mfem_dof_map_2d, mfem.py 197-216; the vertices are taken one by one. *)
Definition parts_2d : list (bool * list index) :=
  [ (false, [lo; lo]); (false, [hi; lo]); (false, [hi; hi]); (false, [lo; hi]);
    (false, [mid; lo]); (true, [mid; hi]); (false, [lo; mid]); (false, [hi; mid]);
    (false, [mid; mid]) ].
(** _mfem_dof_map_3d, 227-270 *)
Definition parts_3d : list (bool * list index) :=
  [ (false, [lo; lo; lo]); (false, [hi; lo; lo]); (false, [hi; hi; lo]); (false, [lo; hi; lo]);
    (false, [lo; lo; hi]); (false, [hi; lo; hi]); (false, [hi; hi; hi]); (false, [lo; hi; hi]);
    (false, [mid; lo; lo]); (true, [mid; hi; lo]); (false, [mid; lo; hi]); (true, [mid; hi; hi]);
    (false, [lo; mid; lo]); (false, [hi; mid; lo]); (false, [lo; mid; hi]); (false, [hi; mid; hi]);
    (false, [lo; lo; mid]); (false, [hi; lo; mid]); (false, [hi; hi; mid]); (false, [lo; hi; mid]);
    (false, [mid; back; lo]); (false, [mid; lo; mid]); (false, [hi; mid; mid]);
    (false, [back; hi; mid]); (false, [lo; back; mid]); (false, [mid; mid; hi]);
    (false, [mid; mid; mid]) ].

Definition part_ids (res : list nat) (p : bool * list index) : option (list nat) :=
  option_map (fun l => if fst p then rev l else l) (multi_index_getitem res (snd p)).
(** dof_mapping, 276-295; [None] = ValueError. *)
Definition dof_mapping (res : list nat) : option (list nat * list nat) :=
  match (match length res with 2 => Some parts_2d | 3 => Some parts_3d | _ => None end) with
  | None => None
  | Some parts =>
      match all_some (map (part_ids res) parts) with
      | None => None
      | Some l => let to_m := concat l in Some (to_m, argsort to_m)
      end
  end.

(** a[ids] *)
Definition take {A} (a : list A) (ids : list nat) : option (list A) := all_some (map (nth_error a) ids).

(** * export, mfem.py 508-702 *)

Inductive mkey :=
| KIntro | KDimension | KElements | KBoundary | KEdges | KVertices | KKnotvectors | KWeights
| KSpace | KCollection | KVDim | KOrdering.
Inductive mnum := MI (z : Z) | MR (x : Qc).
Inductive mline := Key (k : mkey) | Row (l : list mnum).

Definition zs (l : list Z) : mline := Row (map MI l).
(** 553-645 *)
Definition topology (para_dim : nat) : option (list mline) :=
  match para_dim with
  | 2 => Some ([Key KElements; zs [1]; zs [1; 3; 0; 1; 2; 3];
                Key KBoundary; zs [4]; zs [1; 1; 0; 1]; zs [2; 1; 2; 3]; zs [3; 1; 3; 0]; zs [4; 1; 1; 2];
                Key KEdges; zs [4]; zs [0; 0; 1]; zs [0; 3; 2]; zs [1; 0; 3]; zs [1; 1; 2];
                Key KVertices; zs [4]])%Z
  | 3 => Some ([Key KElements; zs [1]; zs [1; 5; 0; 1; 2; 3; 4; 5; 6; 7];
                Key KBoundary; zs [6]; zs [1; 3; 3; 2; 1; 0]; zs [2; 3; 4; 5; 6; 7]; zs [3; 3; 0; 1; 5; 4];
                zs [4; 3; 1; 2; 6; 5]; zs [5; 3; 2; 3; 7; 6]; zs [6; 3; 3; 0; 4; 7];
                Key KEdges; zs [12]; zs [0; 0; 1]; zs [0; 3; 2]; zs [0; 4; 5]; zs [0; 7; 6]; zs [1; 0; 3];
                zs [1; 1; 2]; zs [1; 4; 7]; zs [1; 5; 6]; zs [2; 0; 4]; zs [2; 1; 5]; zs [2; 2; 6]; zs [2; 3; 7];
                Key KVertices; zs [8]])%Z
  | _ => None
  end.

(** nurbs.nurbs: bspline.py 480-498, bezier.py 380-385, rational_bezier.py 135-138:
    weights one, knots 0 and 1 of multiplicity degree + 1. *)
Definition nurbs_axis (a : paxis) : paxis :=
  match a with
  | BezierAxis p => KnotAxis p (repeat 0%Qc (p + 1) ++ repeat 1%Qc (p + 1))
  | a => a
  end.
Definition as_nurbs (s : spline) : spline :=
  Spl (map nurbs_axis (sp_axes s)) (sp_cps s)
      (match sp_weights s with Some w => Some w | None => Some (repeat 1%Qc (length (sp_cps s))) end).

Definition export_mfem (s : spline) : option (list mline) :=
  let s := as_nurbs s in
  let para_dim := length (sp_axes s) in
  match topology para_dim, dof_mapping (sp_res s), sp_weights s with
  | Some top, Some (reorder_ids, _), Some w =>
      match take w reorder_ids, take (sp_cps s) reorder_ids with
      | Some w, Some p =>
          Some ([Key KIntro; Key KDimension; zs [Z.of_nat para_dim]] ++ top ++
                [Key KKnotvectors; zs [Z.of_nat para_dim]] ++
                map (fun a => Row (MI (Z.of_nat (ax_degree a)) :: MI (Z.of_nat (ax_n a)) :: map MR (ax_kv a)))
                    (sp_axes s) ++
                [Key KWeights] ++ map (fun x => Row [MR x]) w ++
                [Key KSpace; Key KCollection; Key KVDim; Key KOrdering] ++
                map (fun r => Row (map MR r)) p)
      | _, _ => None
      end
  | _, _, _ => None
  end.

(** * load, mfem.py 33-145 *)

Inductive hot := HKnots | HWeights | HPoints.
Definition hot_key (k : mkey) : option hot :=
  match k with KKnotvectors => Some HKnots | KWeights => Some HWeights | KOrdering => Some HPoints | _ => None end.
Definition hot_eqb (a b : hot) : bool :=
  match a, b with HKnots, HKnots | HWeights, HWeights | HPoints, HPoints => true | _, _ => false end.
(** The rows collected under [h]; [cur]: key under which rows are collected now. *)
Fixpoint collect (h : hot) (cur : option hot) (f : list mline) : list (list mnum) :=
  match f with
  | [] => []
  | Key k :: f => collect h (hot_key k) f
  | Row r :: f => match cur with
                  | Some c => if hot_eqb c h then r :: collect h cur f else collect h cur f
                  | None => collect h cur f
                  end
  end.
Definition num_value (x : mnum) : Qc := match x with MI z => Q2Qc (inject_Z z) | MR x => x end.
Definition num_int (x : mnum) : option Z := match x with MI z => Some z | MR _ => None end.
(** degree, number of control points, knots *)
Definition kv_row (r : list mnum) : option (Z * Z * list Qc) :=
  match r with
  | d :: n :: k => match num_int d, num_int n with
                   | Some d, Some n => Some (d, n, map num_value k)
                   | _, _ => None
                   end
  | _ => None
  end.
(** literal_eval of a line with one number *)
Definition one_number (r : list mnum) : option Qc := match r with [x] => Some (num_value x) | _ => None end.

(** Core of a rational spline with these control points and weights. *)
Definition rational_core (p : list (list Qc)) (w : list Qc) : core :=
  Core true (map (fun wr => scale (fst wr) (snd wr)) (combine w p)) w.
Definition whole : key := KSlice None None None.
(** spline.cps[:] = p; spline.ws[:] = w *)
Definition overwrite_cps (p : list (list Qc)) : edit := EditC whole (fun i _ => nth i p []).
Definition overwrite_ws (w : list Qc) : edit := EditW whole (fun i _ => nth i w 1%Qc).

(** 84-145 *)
Definition load_mfem (limit : nat) (f : list mline) : option object :=
  match collect HKnots None f with
  | [] => None
  | count :: kvs =>
      match one_number count, all_some (map kv_row kvs), all_some (map one_number (collect HWeights None f)) with
      | Some count, Some kvs, Some w =>
          let p := map (map num_value) (collect HPoints None f) in
          let ncps := fold_right Z.mul 1%Z (map (fun k => snd (fst k)) kvs) in
          if negb (ncps =? Z.of_nat (length p))%Z || negb (ncps =? Z.of_nat (length w))%Z
             || negb (qeqb count (inj (length kvs)))
          then None
          else
            match generic limit (map (fun k => fst (fst k)) kvs) (Some (map snd kvs)) p (Some w) with
            | None => None
            | Some s =>
                match dof_mapping (sp_res s) with
                | None => None
                | Some (_, reorder) =>
                    match take p reorder, take w reorder with
                    | Some p', Some w' =>
                        match edits [overwrite_cps p'; overwrite_ws w'] p w (rational_core p w) with
                        | Some (_, _, c) =>
                            Some (Object (Some CNurbs) (Spl (sp_axes s) (reported_cps c) (Some (c_weights c))))
                        | None => None
                        end
                    | _, _ => None
                    end
                end
            end
      | _, _, _ => None
      end
  end.

(** * read_solution, mfem.py 148-190 *)

(** The lines after the first one with "Ordering" in it. *)
Fixpoint after_ordering (f : list mline) : list (list mnum) :=
  match f with
  | [] => []
  | Key KOrdering :: f => flat_map (fun l => match l with Row r => [r] | Key _ => [] end) f
  | _ :: f => after_ordering f
  end.
(** The reference is a NURBS.  Lines with other key words after the first Ordering make
    literal_eval raise, they are left out here. *)
Definition read_solution (limit : nat) (f : list mline) (reference : spline) : option spline :=
  let solution := map (map num_value) (after_ordering f) in
  if negb (length (sp_cps reference) =? length solution) then None
  else match dof_mapping (sp_res reference), sp_weights reference with
       | Some (_, reorder), Some w =>
           match take solution reorder, take w reorder with
           | Some p, Some w' =>
               match generic limit (core_degrees reference) (Some (core_kvs reference)) p (Some w) with
               | None => None
               | Some s =>
                   match edits [overwrite_ws w'] p w (rational_core p w) with
                   | Some (_, _, c) => Some (Spl (sp_axes s) (reported_cps c) (Some (c_weights c)))
                   | None => None
                   end
               end
           | _, _ => None
           end
       | _, _ => None
       end.

(** * export_cartesian, mfem.py 298-505 *)

(** _corner_vertex_ids, 346-357 and 371-386 *)
Definition corner_ids (cmr : list nat) : list nat :=
  match cmr with
  | [a; b] => [0; a - 1; a * b - 1; a * (b - 1)]
  | [a; b; c] =>
      [0; a - 1; a * b - 1; a * (b - 1);
       (c - 1) * b * a; (c - 1) * b * a + a - 1; (c - 1) * b * a + a * b - 1; (c - 1) * b * a + a * (b - 1)]
  | _ => []
  end.
Definition sub_element_vertices (para_dim : nat) : list (list nat) :=
  if para_dim =? 2 then [[0; 1]; [1; 2]; [3; 2]; [0; 3]]
  else [[0; 1; 2; 3]; [1; 2; 6; 5]; [3; 2; 6; 7]; [0; 3; 7; 4]; [0; 1; 5; 4]; [4; 5; 6; 7]].
Definition mfem_face (para_dim : nat) : list nat :=
  if para_dim =? 2 then [3; 1; 0; 2] else [3; 1; 4; 2; 0; 5].

(** 403-439.  [cmrs]: resolutions of the patches; [ids p k]: inverse_numeration of
    close_rows (gustaf) for corner [k] of patch [p], that is the number shared by all
    corners close to it; [table]: interfaces.  The boundary lines: boundary id and
    vertices.  *)
Definition corner_vertices {A} (point : nat -> nat -> A) (cmrs : list (list nat)) : list A :=
  concat (map (fun pc => map (point (fst pc)) (corner_ids (snd pc))) (combine (seq 0 (length cmrs)) cmrs)).
Definition per_element (para_dim : nat) : nat := if para_dim =? 2 then 4 else 8.
Definition boundary_lines (para_dim : nat) (inverse : list nat) (table : list (list Z)) : list (Z * list nat) :=
  concat (map (fun er =>
    let e := fst er in
    concat (map (fun fc =>
      if (snd fc <? 0)%Z
      then [((- snd fc)%Z,
             map (fun k => nth (e * per_element para_dim + k) inverse 0)
                 (nth (nth (fst fc) (mfem_face para_dim) 0) (sub_element_vertices para_dim) []))]
      else []) (combine (seq 0 (length (snd er))) (snd er))))
    (combine (seq 0 (length table)) table)).
