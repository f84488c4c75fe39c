(** Property theorems C26, C27, C30, C52 - C54: creating splines, assigning and
    reading their properties. *)
From Coq Require Import List Arith ZArith Bool QArith Qcanon Lia.
From Verif Require Import Base BaseQc S_Spline S_Value M_Core S_Core P_Core P_State
  M_Elevate S_Elevate P_Elevate W_Core.
Import ListNotations.
Local Open Scope nat_scope.

(** * C30: construction *)

(** Within the limits of the implementation the constructor accepts exactly
    the consistent inputs and makes a spline with these properties. *)
Theorem C30_accept_partial : forall limit c i degs kvs cps ws,
  complete c i degs kvs cps ws ->
  forall s, built limit c i s <->
    consistent degs kvs cps ws /\ supported limit degs kvs cps /\
    has_properties s degs kvs cps ws.
Proof. exact construct_accepts. Qed.
Print Assumptions C30_accept_partial.

Theorem C30_reject_partial : forall limit c i degs kvs cps ws,
  complete c i degs kvs cps ws ->
  (rejected limit c i <-> ~ (consistent degs kvs cps ws /\ supported limit degs kvs cps)).
Proof. exact construct_rejects. Qed.
Print Assumptions C30_reject_partial.

(** A missing property never gives a core. *)
Theorem C30_incomplete : forall limit c i, missing c i ->
  forall st, construct limit c i = Done st \/ construct limit c i = Raised st -> s_core st = None.
Proof. exact construct_missing. Qed.
Print Assumptions C30_incomplete.

Example C30_example :
  complete CNurbs in_nurbs [1%Z] (Some [[0; 0; 1; 1]%Qc]) [[0]; [1]]%Qc (Some [1; 1]%Qc) /\
  built 3 CNurbs in_nurbs (get no_spline (s_core (start CNurbs in_nurbs))) /\
  missing CNurbs in_bsp.
Proof.
  split; [apply complete_nurbs|]. split.
  - exists (start CNurbs in_nurbs). split; [apply done_eq; vm_compute; reflexivity|].
    apply some_eq. vm_compute. reflexivity.
  - right. right. right. split; reflexivity.
Qed.

(** C30 fails: a consistent spline with knots below -1 is rejected. *)
Theorem C30_refuted : exists i degs kvs cps ws,
  complete CBSpline i degs kvs cps ws /\ consistent degs kvs cps ws /\ rejected 3 CBSpline i.
Proof. exact (ex_intro _ in_low (ex_intro _ _ (ex_intro _ _ (ex_intro _ _ (ex_intro _ _
  (conj complete_low (conj low_consistent low_rejected))))))). Qed.
Print Assumptions C30_refuted.

(** * C26: rejected assignments *)

(** The core spline never changes. *)
Theorem C26_core : forall limit c st o st',
  is_setter o -> step limit c st o = Raised st' -> s_core st' = s_core st.
Proof. exact raised_core. Qed.
Print Assumptions C26_core.

(** Rejected knot vectors change no property that can be read. *)
Theorem C26_knots_partial : forall limit c ops st k st',
  reached limit c ops st -> attached_edits false ops -> index_kept false ops ->
  step limit c st (SetKvs k) = Raised st' -> reads st' = reads st.
Proof. exact raised_kvs. Qed.
Print Assumptions C26_knots_partial.

(** Wrong numbers of degrees, control points and weights change nothing. *)
Theorem C26_degrees_size_partial : forall limit c ops st d,
  reached limit c ops st -> attached_edits false ops -> index_kept false ops ->
  needs_kvs c = true ->
  forall s, s_core st = Some s -> length d <> length (sp_axes s) ->
  exists st', step limit c st (SetDegrees d) = Raised st' /\ reads st' = reads st.
Proof. exact raised_degrees_size. Qed.
Print Assumptions C26_degrees_size_partial.
Theorem C26_cps_size_partial : forall limit c st q w,
  s_ws st = Some w -> length (a_val w) <> length q -> step limit c st (SetCps q) = Raised st.
Proof. exact raised_cps_size. Qed.
Print Assumptions C26_cps_size_partial.
Theorem C26_ws_size_partial : forall limit c st q p,
  s_cps st = Some p -> length (a_val p) <> length q -> step limit c st (SetWs q) = Raised st.
Proof. exact raised_ws_size. Qed.
Print Assumptions C26_ws_size_partial.

Example C26_example :
  reached 3 CNurbs all_ops (after CNurbs in_nurbs all_ops) /\
  attached_edits false all_ops /\ index_kept false all_ops /\
  okb (step 3 CNurbs (after CNurbs in_nurbs all_ops) (SetKvs [[0; 1; 0; 1]]%Qc)) = false /\
  okb (step 3 CNurbs (after CNurbs in_nurbs all_ops) (SetWs [1]%Qc)) = false.
Proof.
  split; [apply all_ops_reached|]. split; [apply all_ops_attached|]. split; [apply all_ops_attached|].
  split; vm_compute; reflexivity.
Qed.

(** C26 fails for degrees ... *)
Theorem C26_degrees_refuted : exists ops st d st',
  reached 3 CBSpline ops st /\ step 3 CBSpline st (SetDegrees d) = Raised st' /\
  fst (get_degrees st') = Some d /\ fst (get_degrees st) = Some [1%Z] /\ d <> [1%Z].
Proof.
  exists [], (after CBSpline in_bsp []), [5%Z].
  destruct degrees_stay as [st' [A [B C]]]. exists st'.
  split; [eapply reached_fine; [apply complete_bsp|constructor|vm_compute; reflexivity]|].
  split; [exact A|]. split; [exact B|]. split; [exact C|discriminate].
Qed.
Print Assumptions C26_degrees_refuted.

(** ... and for control points, where moreover nobody keeps the memory of the
    core's control points alive. *)
Theorem C26_control_points_refuted : exists ops st q st',
  reached 3 CBSpline ops st /\ step 3 CBSpline st (SetCps q) = Raised st' /\
  reads st' <> reads st /\ alive st /\ ~ alive st'.
Proof.
  exists [], (after CBSpline in_bsp []), [[0]; [1]; [1]]%Qc.
  destruct cps_stay as [st' [A B]]. exists st'.
  split; [eapply reached_fine; [apply complete_bsp|constructor|vm_compute; reflexivity]|].
  split; [exact A|exact B].
Qed.
Print Assumptions C26_control_points_refuted.

(** * C27: cached properties *)

(** Degrees, control points and weights always agree with the core, and the
    memory of the control points is alive. *)
Theorem C27_reads : forall limit c ops st, reached limit c ops st ->
  exists s, s_core st = Some s /\ degrees_agree st s /\ cps_agree st s /\
    (needs_ws c = true -> weights_agree st s) /\ alive st.
Proof. exact reached_reads. Qed.
Print Assumptions C27_reads.

(** Knot vectors agree as long as no knot is edited in place after another
    property was assigned. *)
Theorem C27_knots_partial : forall limit c ops st,
  reached limit c ops st -> needs_kvs c = true -> attached_edits false ops ->
  exists s, s_core st = Some s /\ knots_agree st s.
Proof. exact reached_knots. Qed.
Print Assumptions C27_knots_partial.

(** multi_index agrees as long as degrees and knot vectors are not assigned
    after it was read. *)
Theorem C27_index_partial : forall limit c ops st,
  reached limit c ops st -> index_kept false ops ->
  exists s, s_core st = Some s /\ index_agrees st s.
Proof. exact reached_index. Qed.
Print Assumptions C27_index_partial.

Example C27_example :
  reached 3 CNurbs all_ops (after CNurbs in_nurbs all_ops) /\
  attached_edits false all_ops /\ index_kept false all_ops.
Proof. exact (conj all_ops_reached all_ops_attached). Qed.

Theorem C27_knots_refuted : exists ops st s,
  reached 3 CBSpline ops st /\ s_core st = Some s /\ ~ knots_agree st s.
Proof.
  destruct knot_ops_core as [s H].
  exact (ex_intro _ knot_ops (ex_intro _ _ (ex_intro _ s (conj knot_ops_reached H)))).
Qed.
Print Assumptions C27_knots_refuted.

Theorem C27_index_refuted : exists ops st s,
  reached 3 CBezier ops st /\ s_core st = Some s /\ ~ index_agrees st s.
Proof.
  destruct index_ops_core as [s H].
  exact (ex_intro _ index_ops (ex_intro _ _ (ex_intro _ s (conj index_ops_reached H)))).
Qed.
Print Assumptions C27_index_refuted.

(** * C52: successful assignments take effect *)

Theorem C52_degrees : forall limit c ops st d st',
  reached limit c ops st -> step limit c st (SetDegrees d) = Done st' ->
  exists s s', s_core st = Some s /\ s_core st' = Some s' /\
    map (fun a => Z.of_nat (ax_degree a)) (sp_axes s') = d /\
    sp_cps s' = sp_cps s /\ sp_weights s' = sp_weights s.
Proof. exact reached_assign_degrees. Qed.
Print Assumptions C52_degrees.

Theorem C52_knot_vectors : forall limit c ops st k st',
  reached limit c ops st -> needs_kvs c = true -> step limit c st (SetKvs k) = Done st' ->
  exists s s', s_core st = Some s /\ s_core st' = Some s' /\
    Forall2 (fun a kv => exists p, a = KnotAxis p kv) (sp_axes s') k /\
    map ax_degree (sp_axes s') = map ax_degree (sp_axes s) /\
    sp_cps s' = sp_cps s /\ sp_weights s' = sp_weights s.
Proof. exact reached_assign_kvs. Qed.
Print Assumptions C52_knot_vectors.

Theorem C52_control_points_partial : forall limit c ops st q st',
  reached limit c ops st -> needs_ws c = false \/ s_ws st <> None ->
  step limit c st (SetCps q) = Done st' ->
  exists s s', s_core st = Some s /\ s_core st' = Some s' /\ sp_cps s' = q /\
    sp_weights s' = sp_weights s.
Proof. exact reached_assign_cps. Qed.
Print Assumptions C52_control_points_partial.

Theorem C52_weights_partial : forall limit c ops st q st',
  reached limit c ops st -> needs_ws c = true -> s_cps st <> None ->
  step limit c st (SetWs q) = Done st' ->
  exists s s', s_core st = Some s /\ s_core st' = Some s' /\ sp_weights s' = Some q /\
    sp_cps s' = sp_cps s.
Proof. exact reached_assign_ws. Qed.
Print Assumptions C52_weights_partial.

Example C52_example :
  let st := after CNurbs in_nurbs all_ops in
  reached 3 CNurbs all_ops st /\ s_ws st <> None /\ s_cps st <> None /\
  okb (step 3 CNurbs st (SetCps [[1]; [0]]%Qc)) = true /\
  okb (step 3 CNurbs st (SetWs [1; 1 + 1]%Qc)) = true /\
  okb (step 3 CNurbs st (SetDegrees [1%Z])) = true /\
  okb (step 3 CNurbs st (SetKvs [[0; 0; qc 1 2; qc 1 2]]%Qc)) = true.
Proof.
  split; [apply all_ops_reached|].
  split; [intros H; apply (f_equal someb) in H; vm_compute in H; discriminate|].
  split; [intros H; apply (f_equal someb) in H; vm_compute in H; discriminate|].
  repeat split; vm_compute; reflexivity.
Qed.

(** C52 fails for rational splines whose properties were cleared. *)
Theorem C52_refuted : exists ops st q st' s',
  reached 3 CNurbs ops st /\ step 3 CNurbs st (SetCps q) = Done st' /\
  s_core st' = Some s' /\ sp_cps s' <> q.
Proof.
  destruct clear_ops_ignored as [st' [s' H]].
  exact (ex_intro _ clear_ops (ex_intro _ _ (ex_intro _ _ (ex_intro _ st' (ex_intro _ s'
    (conj clear_ops_reached H)))))).
Qed.
Print Assumptions C52_refuted.
Theorem C52_weights_refuted : exists ops st q st' s',
  reached 3 CNurbs ops st /\ step 3 CNurbs st (SetWs q) = Done st' /\
  s_core st' = Some s' /\ sp_weights s' <> Some q.
Proof.
  destruct clear_ops_ignored_ws as [st' [s' H]].
  exact (ex_intro _ clear_ops (ex_intro _ _ (ex_intro _ _ (ex_intro _ st' (ex_intro _ s'
    (conj clear_ops_reached H)))))).
Qed.
Print Assumptions C52_weights_refuted.

(** * C53: control points stay writable *)

Theorem C53_writable_partial : forall limit c ops st f, reached limit c ops st ->
  needs_ws c = true \/ Forall (fun o => ~ touches_ws o) ops ->
  exists s st', s_core st = Some s /\ step limit c st (EditCps f) = Done st' /\
    s_core st' = Some (with_cps s (f (sp_cps s))).
Proof. exact reached_edit. Qed.
Print Assumptions C53_writable_partial.

Example C53_example :
  reached 3 CNurbs all_ops (after CNurbs in_nurbs all_ops) /\ needs_ws CNurbs = true /\
  reached 3 CBSpline knot_ops (after CBSpline in_bsp knot_ops) /\
  Forall (fun o => ~ touches_ws o) knot_ops.
Proof.
  split; [apply all_ops_reached|]. split; [reflexivity|]. split; [apply knot_ops_reached|].
  repeat constructor; intros [H|[f H]]; discriminate.
Qed.

(** C53 fails after reading the weights of a non-rational spline. *)
Theorem C53_refuted : exists ops st f st',
  reached 3 CBSpline ops st /\ step 3 CBSpline st (EditCps f) = Raised st'.
Proof.
  destruct frozen_ops_raises as [st' H].
  exact (ex_intro _ frozen_ops (ex_intro _ _ (ex_intro _ _ (ex_intro _ st'
    (conj frozen_ops_reached H))))).
Qed.
Print Assumptions C53_refuted.

(** * C54: elevate_degrees *)

(** Valid requests raise every degree by the number of requests. *)
Theorem C54_elevate : forall elev st s dims,
  raises_degree elev -> s_core st = Some s -> dims <> [] -> Forall (valid_dim s) dims ->
  exists s' st', elevate_degrees elev st dims = Some (Done st') /\ s_core st' = Some s' /\
    length (sp_axes s') = length (sp_axes s) /\
    (forall i, nth i (map ax_degree (sp_axes s')) 0 =
               nth i (map ax_degree (sp_axes s)) 0 + asked dims i) /\
    degrees_agree st' s'.
Proof. exact elevate_ok. Qed.
Print Assumptions C54_elevate.

(** An invalid dimension raises; a negative one before anything changes. *)
Theorem C54_invalid : forall elev st s dims d,
  raises_degree elev -> s_core st = Some s -> In d dims -> ~ valid_dim s d ->
  exists st', elevate_degrees elev st dims = Some (Raised st').
Proof. exact elevate_invalid_raises. Qed.
Print Assumptions C54_invalid.
Theorem C54_negative_partial : forall elev st s dims d,
  s_core st = Some s -> In d dims -> (d < 0)%Z ->
  elevate_degrees elev st dims = Some (Raised st).
Proof. exact elevate_negative_unchanged. Qed.
Print Assumptions C54_negative_partial.

Example C54_example :
  raises_degree simple_elev /\
  exists s, s_core (after CBezier in_bez []) = Some s /\ Forall (valid_dim s) [1; 0; 1]%Z /\
    ~ valid_dim s 2%Z /\ ~ valid_dim s (-1)%Z.
Proof.
  split; [exact simple_elev_ok|].
  exists (get no_spline (s_core (after CBezier in_bez []))).
  split; [apply some_eq; vm_compute; reflexivity|].
  unfold valid_dim. set (n := length _). assert (E : n = 2) by (vm_compute; reflexivity).
  rewrite E. split; [repeat constructor; lia|]. lia.
Qed.

(** C54 fails: the request [5, 0] raises after axis 0 was elevated, and the
    degrees that are read are the old ones. *)
Theorem C54_refuted : exists elev ops st dims st' s',
  raises_degree elev /\ reached 3 CBezier ops st /\
  elevate_degrees elev st dims = Some (Raised st') /\ s_core st' = Some s' /\
  map ax_degree (sp_axes s') = [2; 2] /\ fst (get_degrees st') = Some [1; 2]%Z.
Proof.
  destruct elevate_partly as [st' [s' H]].
  refine (ex_intro _ simple_elev (ex_intro _ [ReadDegrees] (ex_intro _ _ (ex_intro _ _
    (ex_intro _ st' (ex_intro _ s' (conj simple_elev_ok (conj _ H)))))))).
  eapply reached_fine; [apply complete_bez|repeat constructor|vm_compute; reflexivity].
Qed.
Print Assumptions C54_refuted.

(** C54 fails: an empty request writes before the start of an array. *)
Theorem C54_empty_refuted : forall elev st s,
  s_core st = Some s -> elevate_degrees elev st [] = None.
Proof. exact elevate_nothing. Qed.
Print Assumptions C54_empty_refuted.
