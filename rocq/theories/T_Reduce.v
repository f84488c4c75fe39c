(** Property theorems C90: removal of knots and reduction of degrees. *)
From Coq Require Import List Arith ZArith QArith Qcanon Lia Permutation.
From Verif Require Import Base BaseQc S_Spline S_Value M_Core S_Core P_Core W_Core S_Files S_Create S_Elevate M_Reduce S_Reduce P_ReduceWitness P_Reduce W_Reduce.
Import ListNotations.
Local Open Scope list_scope.
Local Open Scope nat_scope.

(** C90: one flag for each request, in order; the flagged knots are gone, once for each flag, and no
    other; the values move by at most the tolerance for each flag; properties read before are not
    stale. *)
Theorem C90_removal :
  forall rem limit dim st s k p kv ks tol,
  removes_knot rem -> sound limit dim s -> has_kvs s = true -> s_core st = Some s -> knots_agree st s -> (0 <= tol)%Qc ->
  nth_error (sp_axes s) k = Some (KnotAxis p kv) -> (forall x, In x ks -> in_range kv x) ->
  exists flags st' s', remove_knots rem st (Z.of_nat k) ks tol = Returned flags st' /\ s_core st' = Some s' /\ length flags = length ks /\
    (exists kv', Permutation kv (marked ks flags ++ kv') /\ sp_axes s' = axis_set k (KnotAxis p kv') (sp_axes s)) /\
    sound limit dim s' /\ same_family s s' /\ within dim (inj (length (marked ks flags)) * tol) s s' /\ (marked ks flags = [] -> s' = s) /\
    reads_on st s st' s'.
Proof. exact C90_removal_holds. Qed.
Print Assumptions C90_removal.

(** C90: a request outside the knots, or an axis that is too large, raises and changes nothing. *)
Theorem C90_removal_refused :
  (forall rem limit dim st s k p kv ks tol x,
   sound limit dim s -> has_kvs s = true -> s_core st = Some s -> knots_agree st s ->
   nth_error (sp_axes s) k = Some (KnotAxis p kv) -> In x ks -> ~ in_range kv x ->
   exists st', remove_knots rem st (Z.of_nat k) ks tol = Raises st' /\ s_core st' = Some s /\ reads st' = reads st) /\
  (forall rem st s d ks tol, s_core st = Some s -> (Z.of_nat (length (sp_axes s)) <= d)%Z -> remove_knots rem st d ks tol = Raises st).
Proof. exact C90_removal_refused_holds. Qed.
Print Assumptions C90_removal_refused.

(** C90 fails for negative axes: the knots of the axis counted from the end are checked, then the
    library is called with the negative number. *)
Theorem C90_negative_axis_refuted :
  forall rem limit dim st s k p kv ks tol,
  sound limit dim s -> s_core st = Some s -> has_kvs s = true -> knots_agree st s ->
  nth_error (sp_axes s) k = Some (KnotAxis p kv) -> ks <> [] -> (forall x, In x ks -> in_range kv x) ->
  remove_knots rem st (Z.of_nat k - Z.of_nat (length (sp_axes s)))%Z ks tol = Undefined.
Proof. exact C90_negative_axis_refuted_holds. Qed.
Print Assumptions C90_negative_axis_refuted.

(** C90: reduce_degrees lowers the degree of every axis by its number of flags. *)
Theorem C90_reduction :
  forall red limit dim st s dims tol,
  lowers_degree red -> sound limit dim s -> has_kvs s = true -> s_core st = Some s -> (0 <= tol)%Qc -> Forall (valid_dim s) dims ->
  exists flags st' s', reduce_degrees red st dims tol = Returned flags st' /\ s_core st' = Some s' /\ length flags = length dims /\
    length (sp_axes s') = length (sp_axes s) /\
    (forall i, nth i (map ax_degree (sp_axes s)) 0 = nth i (map ax_degree (sp_axes s')) 0 + asked (marked dims flags) i) /\
    sound limit dim s' /\ same_family s s' /\ within dim (inj (length (marked dims flags)) * tol) s s' /\ (marked dims flags = [] -> s' = s) /\
    reads_on st s st' s'.
Proof. exact C90_reduction_holds. Qed.
Print Assumptions C90_reduction.

(** C90: an axis that does not exist raises; Bezier types raise for every request and stay. *)
Theorem C90_reduction_raises :
  (forall red st s dims tol d, s_core st = Some s -> In d dims -> ~ valid_dim s d -> exists st', reduce_degrees red st dims tol = Raises st') /\
  (forall red st s d dims tol, s_core st = Some s -> has_kvs s = false -> reduce_degrees red st (d :: dims) tol = Raises st).
Proof. exact C90_reduction_raises_holds. Qed.
Print Assumptions C90_reduction_raises.

(** C90 fails: the request [0, 5] raises after axis 0 was reduced, and the degrees that are read are
    the old ones. *)
Theorem C90_partly_refuted :
  exists red ops st dims st' s', lowers_degree red /\ reached 3 CBSpline ops st /\ reduce_degrees red st dims 0 = Raises st' /\
    s_core st' = Some s' /\ map ax_degree (sp_axes s') = [1] /\ fst (get_degrees st') = Some [2%Z].
Proof. exact C90_partly_refuted_holds. Qed.
Print Assumptions C90_partly_refuted.

(** Library calls as required exist. *)
Example C90_oracles : removes_knot remove_one /\ lowers_degree reduce_one.
Proof. exact C90_oracles_holds. Qed.

(** A corner that is none is removed, once; a real corner and an end stay. *)
Example C90_removal_example :
  let r := remove_knots remove_one bent_state 0 [qc 3 4; qc 1 2; qc 1 2; 1]%Qc 0 in
  sound 3 2 bent /\ knots_agree bent_state bent /\
  is_returned r = true /\ flags_of r = [false; true; false; false] /\
  match sp_axes (core_of (state_of r)) with [KnotAxis p kv] => p = 1 /\ kv = [0; 0; qc 3 4; 1; 1]%Qc | _ => False end.
Proof. exact C90_removal_example_holds. Qed.

(** A line of degree two becomes one of degree one, not less. *)
Example C90_reduction_example :
  let st := after CBSpline in_line [ReadDegrees] in
  let r := reduce_degrees reduce_one st [0; 0]%Z 0 in
  is_returned r = true /\ flags_of r = [true; false] /\ map ax_degree (sp_axes (core_of (state_of r))) = [1] /\
  fst (get_degrees (state_of r)) = Some [1%Z].
Proof. exact C90_reduction_example_holds. Qed.