(** Property theorems C05, C06, C07, C09: grids and control point numbering. *)
From Coq Require Import List Arith ZArith QArith Qcanon Lia Sorted.
From Verif Require Import Base BaseRadix BaseQc M_Numpy M_Grid S_Grid P_Grid.
Import ListNotations.
Local Open Scope nat_scope.

(** C05: coordinate k of sample number id. *)
Theorem C05_sample_order :
  forall bounds resolutions g id k,
  grid_setup bounds resolutions = Some g -> k < length resolutions ->
  nth k (id_to_grid_point g id) 0%Qc =
  sample_coordinate (fun k => nth k bounds 0%Qc)
    (fun k => nth (k + length resolutions) bounds 0%Qc) (map Z.to_nat resolutions) id k.
Proof. exact grid_point_coordinate. Qed.
Print Assumptions C05_sample_order.

(** C05: filling the whole grid at once writes, at row id, the point IdToGridPoint
    gives for id, and writes nothing else. *)
Theorem C05_fill_agrees :
  forall bounds resolutions g m a,
  grid_setup bounds resolutions = Some g -> resolutions <> [] ->
  grid_fill g m a =
  if a <? grid_size g * length resolutions
  then nth (a mod length resolutions) (id_to_grid_point g (a / length resolutions)) 0%Qc
  else m a.
Proof. exact grid_fill_spec. Qed.
Print Assumptions C05_fill_agrees.

Theorem C05_size :
  forall bounds resolutions g, grid_setup bounds resolutions = Some g ->
  grid_size g = fold_right Nat.mul 1 (map Z.to_nat resolutions).
Proof. exact grid_size_product. Qed.
Print Assumptions C05_size.

(** C05: set-up is refused exactly when a resolution is below 2. *)
Theorem C05_rejects_iff :
  forall bounds resolutions,
  grid_setup bounds resolutions = None <-> Exists (fun r => (r < 2)%Z) resolutions.
Proof. exact grid_setup_error. Qed.
Print Assumptions C05_rejects_iff.

(** C05: python's cartesian_product uses the same order. *)
Theorem C05_cartesian_product_order :
  forall A (d : A) arrays, arrays <> [] ->
  exists rows, cartesian_product arrays true = Some rows /\
    length rows = fold_right Nat.mul 1 (map (@length A) arrays) /\
    forall id, id < length rows ->
      length (nth id rows []) = length arrays /\
      forall k, k < length arrays ->
        axis_position (map (@length A) arrays) id k < length (nth k arrays []) /\
        nth k (nth id rows []) d =
        nth (axis_position (map (@length A) arrays) id k) (nth k arrays []) d.
Proof. exact @cartesian_product_nth. Qed.
Print Assumptions C05_cartesian_product_order.

Example C05_example :
  exists g, grid_setup [0; 1; Q2Qc 2; Q2Qc 4]%Qc [3; 2]%Z = Some g /\ grid_size g = 6 /\
  map (id_to_grid_point g) [0; 1; 2; 3; 4; 5] =
  [[0; 1]; [1; 1]; [Q2Qc 2; 1]; [0; Q2Qc 4]; [1; Q2Qc 4]; [Q2Qc 2; Q2Qc 4]]%Qc /\
  cartesian_product [[10; 11; 12]; [20; 21]] true =
  Some [[10; 20]; [11; 20]; [12; 20]; [10; 21]; [11; 21]; [12; 21]].
Proof. eexists. split; [reflexivity|]. repeat split; vm_compute; reflexivity. Qed.

(** C06 *)
Theorem C06_inside_bounds :
  forall bounds resolutions g id k,
  grid_setup bounds resolutions = Some g -> k < length resolutions ->
  (nth k bounds 0 <= nth (k + length resolutions) bounds 0)%Qc ->
  (nth k bounds 0 <= nth k (id_to_grid_point g id) 0 <= nth (k + length resolutions) bounds 0)%Qc.
Proof. exact grid_bounds. Qed.
Print Assumptions C06_inside_bounds.

Theorem C06_hits_both_ends :
  forall bounds resolutions g id k,
  grid_setup bounds resolutions = Some g -> k < length resolutions ->
  (axis_position (map Z.to_nat resolutions) id k = 0 ->
   nth k (id_to_grid_point g id) 0%Qc = nth k bounds 0%Qc) /\
  (axis_position (map Z.to_nat resolutions) id k = Z.to_nat (nth k resolutions 0%Z) - 1 ->
   nth k (id_to_grid_point g id) 0%Qc = nth (k + length resolutions) bounds 0%Qc).
Proof. exact grid_endpoints. Qed.
Print Assumptions C06_hits_both_ends.

Theorem C06_monotone :
  forall bounds resolutions g id1 id2 k,
  grid_setup bounds resolutions = Some g -> k < length resolutions ->
  (nth k bounds 0 <= nth (k + length resolutions) bounds 0)%Qc ->
  axis_position (map Z.to_nat resolutions) id1 k <= axis_position (map Z.to_nat resolutions) id2 k ->
  (nth k (id_to_grid_point g id1) 0 <= nth k (id_to_grid_point g id2) 0)%Qc.
Proof. exact grid_monotone. Qed.
Print Assumptions C06_monotone.

Example C06_example :
  exists g, grid_setup [0; 1]%Qc [4]%Z = Some g /\
  map (id_to_grid_point g) [0; 1; 2; 3] = [[0]; [Q2Qc (1 # 3)]; [Q2Qc (2 # 3)]; [1]]%Qc.
Proof. eexists. split; [reflexivity|]. vm_compute. reflexivity. Qed.

(** C07 *)
Theorem C07_hyper_plane_ids :
  forall res axis plane,
  Forall (fun r => 0 < r) res -> axis < length res -> plane < nth axis res 0 ->
  is_plane res axis plane (ids_on_hyper_plane res axis plane).
Proof. exact ids_on_plane_exact. Qed.
Print Assumptions C07_hyper_plane_ids.

Example C07_example :
  ids_on_hyper_plane [2; 3; 2] 1 2 = [4; 5; 10; 11].
Proof. reflexivity. Qed.

(** C09: integer subscripts, negative ones counting from the end. *)
Theorem C09_multi_index_value :
  forall res zs idx,
  length zs = length idx -> length idx = length res ->
  (forall k, k < length res ->
     nth k idx 0 < nth k res 0 /\
     (nth k zs 0%Z = Z.of_nat (nth k idx 0) \/
      nth k zs 0%Z = (Z.of_nat (nth k idx 0%nat) - Z.of_nat (nth k res 0%nat))%Z)) ->
  multi_index_getitem res (map IInt zs) = Some [flat_id res idx].
Proof. exact multi_index_ints. Qed.
Print Assumptions C09_multi_index_value.

Theorem C09_multi_index_out_of_range :
  forall res zs k, k < length zs ->
  (length res <= k \/
   (nth k zs 0 >= Z.of_nat (nth k res 0%nat) \/ nth k zs 0 < - Z.of_nat (nth k res 0%nat))%Z) ->
  multi_index_getitem res (map IInt zs) = None.
Proof. exact multi_index_error. Qed.
Print Assumptions C09_multi_index_out_of_range.

Theorem C09_numbering_is_bijective :
  forall res,
  (forall idx, Forall2 (fun r i => i < r) res idx -> flat_id res idx < fold_right Nat.mul 1 res) /\
  (forall i j, Forall2 (fun r i => i < r) res i -> Forall2 (fun r i => i < r) res j ->
               flat_id res i = flat_id res j -> i = j) /\
  (forall id, id < fold_right Nat.mul 1 res ->
     exists idx, Forall2 (fun r i => i < r) res idx /\ flat_id res idx = id).
Proof. exact flat_id_bijective. Qed.
Print Assumptions C09_numbering_is_bijective.

(** C09: slices: the ids of all selected multi indices, first axis fastest. *)
Theorem C09_multi_index_slices :
  forall res ix pos, resolve res ix = Some pos ->
  exists ids, multi_index_getitem res ix = Some ids /\
    length ids = fold_right Nat.mul 1 (map (@length nat) pos) /\
    forall n, n < length ids ->
      nth n ids 0 =
      flat_id res (map (fun k => nth (axis_position (map (@length nat) pos) n k) (nth k pos []) 0)
                       (seq 0 (length res))).
Proof. exact multi_index_subscript. Qed.
Print Assumptions C09_multi_index_slices.

Example C09_example :
  multi_index_getitem [3; 4; 2] (map IInt [1; -1; 1]%Z) = Some [flat_id [3; 4; 2] [1; 3; 1]] /\
  flat_id [3; 4; 2] [1; 3; 1] = 22 /\
  multi_index_getitem [3; 4; 2] (map IInt [1; 4; 1]%Z) = None /\
  multi_index_getitem [3; 4; 2] [ISlice None None (Some (-1)%Z); IInt (-1)] = Some [11; 10; 9; 23; 22; 21].
Proof. repeat split. Qed.
