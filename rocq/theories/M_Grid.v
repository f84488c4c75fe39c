(** Model of grid enumeration:
    include/splinepy/utils/grid_points.hpp (GridPoints),
    splinepy/utils/data.py 346-396 (cartesian_product),
    splinepy/helpme/multi_index.py (MultiIndex). *)
From Coq Require Import List ZArith QArith Qcanon.
From Verif Require Import Base BaseRadix BaseQc M_Numpy.
Import ListNotations.
Local Open Scope nat_scope.

(** grid_points.hpp 37-53: the fields that matter. *)
Record grid := Grid { g_res : list nat; g_entries : list (list Qc) }.

(** grid_points.hpp 84-93: linspace of one axis. *)
Definition linspace (lower upper : Qc) (res : nat) : list Qc :=
  let step := ((upper - lower) / inj (res - 1))%Qc in
  map (fun j => (lower + step * inj j)%Qc) (seq 0 res).

(** grid_points.hpp 64-95 (SetUp).  [bounds] has length 2*dim: lower bounds
    then upper bounds.  [None] = exception for a resolution below 2. *)
Fixpoint setup_axes (dim i : nat) (bounds : list Qc) (resolutions : list Z)
  : option (list nat * list (list Qc)) :=
  match resolutions with
  | [] => Some ([], [])
  | res :: rest =>
      if Z.ltb res 2 then None                                       (* 73-77 *)
      else match setup_axes dim (S i) bounds rest with
           | None => None
           | Some (rs, es) =>
               let r := Z.to_nat res in
               Some (r :: rs,
                     linspace (nth i bounds 0%Qc) (nth (i + dim) bounds 0%Qc) r :: es)
           end
  end.
Definition grid_setup (bounds : list Qc) (resolutions : list Z) : option grid :=
  match setup_axes (length resolutions) 0 bounds resolutions with
  | None => None
  | Some (rs, es) => Some (Grid rs es)
  end.

(** grid_points.hpp 66, 78, 175: Size(). *)
Definition grid_size (g : grid) : nat := fold_left Nat.mul (g_res g) 1.

(** grid_points.hpp 100-106: IdToGridPoint.  The default of [nth] is never
    reached because tmp % res < entries.size(). *)
Fixpoint id_to_point (res : list nat) (entries : list (list Qc)) (tmp : nat) : list Qc :=
  match res, entries with
  | r :: rs, e :: es => nth (tmp mod r) e 0%Qc :: id_to_point rs es (tmp / r)
  | _, _ => []
  end.
Definition id_to_grid_point (g : grid) (id : nat) : list Qc :=
  id_to_point (g_res g) (g_entries g) id.

(** A C++ array being filled: address -> value. *)
Definition nmem := nat -> Qc.
Definition nstore (m : nmem) (w : nat * Qc) : nmem :=
  fun a => if Nat.eqb a (fst w) then snd w else m a.

(** grid_points.hpp 110-127: Fill, as the list of assignments it performs.
    [i] is the axis, [tile] the value before the division of line 114. *)
Fixpoint fill_loop (dim : nat) (entries : list (list Qc)) (i tile rep : nat)
  : list (nat * Qc) :=
  match entries with
  | [] => []
  | entry :: rest =>
      let tile := tile / length entry in                             (* 114 *)
      let vals := concat (repeat (flat_map (fun e => repeat e rep) entry) tile) in
      combine (map (fun p => i + p * dim) (seq 0 (length vals))) vals (* 115-123 *)
      ++ fill_loop dim rest (S i) tile (rep * length entry)          (* 124-125 *)
  end.
Definition grid_fill (g : grid) (m : nmem) : nmem :=
  fold_left nstore
    (fill_loop (length (g_entries g)) (g_entries g) 0 (grid_size g) 1) m.

(** grid_points.hpp 146-164: local_to_global_bd_id; state (combined_offsets,
    id, global_id), axis counter i_pdc. *)
Fixpoint local_to_global (res : list nat) (axis plane i comb id gid : nat) : nat :=
  match res with
  | [] => gid
  | r :: rs =>
      if Nat.eqb i axis
      then local_to_global rs axis plane (S i) (comb * r) id (gid + comb * plane)
      else
        let ras := id mod r in
        local_to_global rs axis plane (S i) (comb * r) ((id - ras) / r) (gid + ras * comb)
  end.

(** grid_points.hpp 138-144: number of points on the plane. *)
Fixpoint n_on_plane (res : list nat) (axis i : nat) : nat :=
  match res with
  | [] => 1
  | r :: rs => if Nat.eqb i axis then n_on_plane rs axis (S i)
               else r * n_on_plane rs axis (S i)
  end.

(** grid_points.hpp 134-172: IdsOnHyperPlane. *)
Definition ids_on_hyper_plane (res : list nat) (axis plane : nat) : list nat :=
  map (fun i => local_to_global res axis plane 0 1 i 0) (seq 0 (n_on_plane res axis 0)).

(** data.py 384-394: the views are filled from the last axis backwards; the
    block of axis i is the block of axis i+1 copied len(arrays[i]) times with
    column i set to the broadcast arrays[i].  Simplification: rows carry only
    the columns filled so far. *)
Fixpoint cp_block {A} (arrays : list (list A)) : list (list A) :=
  match arrays with
  | [] => [[]]
  | a :: rest => flat_map (fun x => map (cons x) (cp_block rest)) a
  end.

(** data.py 346-396. [None]: np.result_type() of no arrays raises. *)
Definition cartesian_product {A} (arrays : list (list A)) (reverse : bool)
  : option (list (list A)) :=
  match arrays with
  | [] => None
  | _ => Some (if reverse then map (@rev A) (cp_block (rev arrays)) else cp_block arrays)
  end.

(** multi_index.py 16-52: arange(prod).reshape( *res, order="F"), then
    __getitem__(args).T.ravel(). *)
Definition multi_index_getitem (res : list nat) (ix : list index) : option (list nat) :=
  match reshape_F 0 (seq 0 (prodn res)) res with
  | None => None
  | Some a => match nd_getitem a ix with
              | None => None
              | Some b => Some (ravel_C (nd_T b))
              end
  end.
