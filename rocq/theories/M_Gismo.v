(** Model of splinepy/io/gismo.py.

    A file is the tree of elements that load reads.  Texts are their numbers: str of
    doubles has all digits, base64 holds the bytes, np.fromstring ignores line breaks.
    ElementTree writes an empty text as no text, which is read as None. *)
From Coq Require Import List Arith ZArith Bool QArith Qcanon.
From Verif Require Import Base BaseQc M_Numpy S_Value M_Core M_Files M_Mfem M_Boundaries M_Patches.
Import ListNotations.
Local Open Scope list_scope.
Local Open Scope nat_scope.

(** * Multipatch element *)

Record gtable := GTable {
  g_para_dim : nat;                   (* parDim *)
  g_range : Z * Z;                    (* patches *)
  g_interfaces : option (list Z);     (* interfaces *)
  g_boundaries : list (option (list Z)) (* boundary elements in order *)
}.
Definition text {A} (l : list A) : option (list A) := match l with [] => None | l => Some l end.

Definition index_offset : Z := 100.
(** 329-331 *)
Definition interface_row (orient : nat * nat * nat * nat -> list Z) (l : nat * nat * nat * nat) : list Z :=
  match l with (p, f, q, g) =>
    ([Z.of_nat p + index_offset; Z.of_nat f + 1; Z.of_nat q + index_offset; Z.of_nat g + 1] ++ orient l)%Z
  end.
(** 351, 365: patch and face of a position in the table *)
Definition face_row (faces : nat) (i : nat) : list Z :=
  [Z.of_nat (i / faces) + index_offset; Z.of_nat (i mod faces) + 1]%Z.
(** export 305-402 and 431.  [orient]: columns after the fourth of
    interface_orientations(); [None]: no patches (interfaces.min() raises).  The bc
    elements of the old format are not read by load. *)
Definition export_table (para_dim : nat) (orient : nat * nat * nat * nat -> list Z) (labeled : bool)
  (t : list Z) : option gtable :=
  let faces := 2 * para_dim in
  match t with
  | [] => None
  | _ =>
      Some (GTable para_dim
              (index_offset, Z.of_nat (length t / faces) - 1 + index_offset)%Z
              (match where_is (fun v => 0 <=? v)%Z t with
               | [] => None
               | _ => text (concat (map (interface_row orient) (lines faces t)))
               end)
              (if labeled
               then map (fun l => text (concat (map (face_row faces) l))) (boundaries t)
               else match where_is (fun v => v <? 0)%Z t with
                    | [] => []
                    | l => [text (concat (map (face_row faces) l))]
                    end))
  end.

Definition invalid_integer : Z := -99919412.
(** a[i, j] = v for (n, faces) arrays and lists i, j, v: in order. *)
Definition put_at (n faces : nat) (t : list Z) (w : list (Z * Z * Z)) : option (list Z) :=
  match face_positions n faces (map fst w) with
  | None => None
  | Some pos => Some (fold_left (fun t iv => set_nth t (fst iv) (snd iv)) (combine pos (map snd w)) t)
  end.
Definition col (r : list Z) (k : nat) : Z := nth k r 0%Z.
(** 631-651 *)
Definition load_interfaces (n faces : nat) (offset : Z) (txt : list Z) (t : list Z) : option (list Z) :=
  match reshape (faces + 4) txt with
  | None => None
  | Some rs =>
      let one a b := map (fun r => (col r a - offset, col r (a + 1) - 1,
                                    (col r b - offset) * Z.of_nat faces + col r (b + 1) - 1)%Z) rs in
      match put_at n faces t (one 0 2) with
      | None => None
      | Some t => put_at n faces t (one 2 0)
      end
  end.
(** 658-674 *)
Fixpoint load_boundaries (n faces : nat) (offset id : Z) (bs : list (option (list Z))) (t : list Z)
  : option (list Z) :=
  match bs with
  | [] => Some t
  | None :: bs => load_boundaries n faces offset (id + 1) bs t
  | Some txt :: bs =>
      match reshape 2 txt with
      | None => None
      | Some rs =>
          match put_at n faces t (map (fun r => (col r 0 - offset, col r 1 - 1, - id)%Z) rs) with
          | None => None
          | Some t => load_boundaries n faces offset (id + 1) bs t
          end
      end
  end.
(** load 608-674.  The entries that no element sets stay at [invalid_integer]: 690-698
    warns and assigns the table nevertheless. *)
Definition load_table (f : gtable) : option (list Z) :=
  let offset := fst (g_range f) in
  let count := (snd (g_range f) - offset + 1)%Z in
  let faces := g_para_dim f * 2 in
  if (count <? 0)%Z then None
  else
    let n := Z.to_nat count in
    let t := repeat invalid_integer (n * faces) in
    match (match g_interfaces f with
           | None => Some t
           | Some txt => load_interfaces n faces offset txt t
           end) with
    | None => None
    | Some t => load_boundaries n faces offset 1 (g_boundaries f) t
    end.

(** * Geometry elements *)

Record ggeometry := GGeometry {
  g_degrees : list Z; g_knots : list (list Qc);   (* one Basis per axis, index = position *)
  g_weights : option (list Qc);
  g_dim : nat; g_coefs : list Qc
}.
(** _spline_to_ET 146-231 for the geometry: spline.bspline, spline.nurbs (bezier.py 374-385,
    rational_bezier.py 135-139).  [None]: the generic class has no such property, and its
    required_properties contain "weights". *)
Definition with_knots (s : spline) : spline := Spl (map nurbs_axis (sp_axes s)) (sp_cps s) (sp_weights s).
Definition export_geometry (o : object) : option ggeometry :=
  let s := with_knots (o_core o) in
  match o_cls o with
  | None => if negb (has_kvs (o_core o)) then None
            else match sp_weights s with
                 | None => None
                 | w => Some (GGeometry (core_degrees s) (core_kvs s) w (dim_of (sp_cps s)) (concat (sp_cps s)))
                 end
  | Some _ => Some (GGeometry (core_degrees s) (core_kvs s) (sp_weights s) (dim_of (sp_cps s)) (concat (sp_cps s)))
  end.
(** 568-587 and 676-695 *)
Definition load_geometry (limit : nat) (g : ggeometry) : option object :=
  match reshape (g_dim g) (g_coefs g) with
  | None => None
  | Some p =>
      let c := match g_weights g with None => CBSpline | Some _ => CNurbs end in
      match construct limit c (Inputs (Some (g_degrees g)) (Some (g_knots g)) (Some p) (g_weights g)) with
      | Done st => option_map (Object (Some c)) (s_core st)
      | Raised _ => None
      end
  end.

(** * Files *)
Record gfile := GFile { g_table : gtable; g_patches : list ggeometry }.
Definition export_gismo (orient : nat * nat * nat * nat -> list Z) (labeled : bool)
  (para_dim : nat) (t : list Z) (l : list object) : option gfile :=
  match export_table para_dim orient labeled t, all_some (map export_geometry l) with
  | Some x, Some g => Some (GFile x g)
  | _, _ => None
  end.
(** 689-698: the setter of interfaces takes tables of one row for each patch
    (py_multipatch.cpp 1266-1284).  The checks of the Multipatch constructor are left out. *)
Definition load_gismo (limit : nat) (f : gfile) : option (list Z * list object) :=
  match load_table (g_table f), all_some (map (load_geometry limit) (g_patches f)) with
  | Some t, Some l =>
      match l with
      | [] => None
      | o :: _ => if (length t =? length l * (g_para_dim (g_table f) * 2))
                     && (g_para_dim (g_table f) =? length (sp_axes (o_core o)))
                  then Some (t, l) else None
      end
  | _, _ => None
  end.

(** * Fields *)

(** np.unique *)
Fixpoint insert_unique (z : Z) (l : list Z) : list Z :=
  match l with
  | [] => [z]
  | x :: r => if (z <? x)%Z then z :: l else if (z =? x)%Z then l else x :: insert_unique z r
  end.
Definition unique (l : list Z) : list Z := fold_right insert_unique [] l.

(** 47-65 and 81-82; [None] = exception (min of an empty mask, range). *)
Definition field_ids (n : nat) (mask : option (list Z)) : option (list nat) :=
  match mask with
  | None => Some (seq 0 n)
  | Some m =>
      match unique m with
      | [] => None
      | u => if existsb (fun z => z <? 0)%Z u || existsb (fun z => Z.of_nat n <=? z)%Z u then None
             else Some (map Z.to_nat u)
      end
  end.
(** 83-91: [fields]: for each field the patches that are not None. *)
Definition supports (ids : list nat) (fields : list (list bool)) : list (nat * nat) :=
  flat_map (fun jk => flat_map (fun iv : nat * bool => if snd iv then [(fst iv, fst jk)] else [])
                        (combine (seq 0 (length (nth (snd jk) fields []))) (nth (snd jk) fields [])))
           (combine (seq 0 (length ids)) ids).

Definition occurrences (v : nat) (l : list nat) : nat := length (filter (Nat.eqb v) l).
(** np.bincount *)
Definition bincount (l : list nat) : list nat := map (fun v => occurrences v l) (seq 0 (list_max l + 1)).
(** np.cumsum *)
Fixpoint cumsum (acc : nat) (l : list nat) : list nat :=
  match l with [] => [] | x :: l => (acc + x) :: cumsum (acc + x) l end.
(** np.repeat *)
Definition repeat_each (values counts : list nat) : list nat :=
  concat (map (fun vc => repeat (fst vc) (snd vc)) (combine values counts)).
(** 112-119: the third column. *)
Definition counters (patches : list nat) : list Z :=
  let indices := argsort patches in
  let b := bincount patches in
  let shift := cumsum 0 (0 :: removelast b) in
  let counter := map (fun ab => Z.of_nat (fst ab) - Z.of_nat (snd ab))%Z
                     (combine (seq 0 (length patches)) (repeat_each shift b)) in
  fold_left (fun t iv => set_nth t (fst iv) (snd iv)) (combine indices counter)
            (repeat 0%Z (length patches)).

(** The support matrix, 47-130; [None] = exception (also for no rows: supports[:, 0]). *)
Definition support_matrix (mask : option (list Z)) (fields : list (list bool)) : option (list (nat * nat * Z)) :=
  match field_ids (length fields) mask with
  | None => None
  | Some ids =>
      let s := supports ids fields in
      let patches := map fst s in
      match s with
      | [] => None
      | _ => if negb (length (nodup Nat.eq_dec patches) =? list_max patches + 1) then None
             else Some (combine s (counters patches))
      end
  end.
(** 134-145: the fields in the coefficients of patch [id]. *)
Definition patch_fields (ids : list nat) (m : list (nat * nat * Z)) (id : nat) : list nat :=
  map (fun r => nth (snd (fst r)) ids 0) (filter (fun r => fst (fst r) =? id) m).
