(** Witnesses and assembly of the theorems of T_Check. *)
From Coq Require Import List Arith ZArith Bool QArith Qcanon Lia.
From Verif Require Import Base BaseQc S_Grid S_Spline S_Value M_Core M_Check S_Check W_KnotInsert P_Check.
Import ListNotations.
Local Open Scope list_scope.
Local Open Scope nat_scope.

Lemma C85_accepted_holds :
  forall s cols rows, Forall (fun r => length r = cols) rows -> rows <> [] ->
  valid_queries s (Table cols rows) = Valid <-> cols = length (sp_axes s) /\ Forall (sp_domain s) rows.
Proof. intros s cols rows R N. exact (valid_iff s (Table cols rows) R N). Qed.

Lemma C85_above_holds :
  forall s cols rows d i, Forall (fun r => length r = cols) rows -> valid_queries s (Table cols rows) = Above d i ->
  exceeds s rows d i /\ (forall e j, e < d -> ~ exceeds s rows e j) /\ (forall e j, ~ undercuts s rows e j).
Proof. intros s cols rows d i R. exact (above_right s (Table cols rows) R d i). Qed.

Lemma C85_below_partial_holds :
  forall s cols rows d i, Forall (fun r => length r = cols) rows -> valid_queries s (Table cols rows) = Below d i ->
  (exists e j, undercuts s rows e j) /\ (length (sp_axes s) = 1 -> undercuts s rows d i).
Proof.
  intros s cols rows d i R H. split; [exact (below_some s (Table cols rows) R d i H)|].
  intros L. exact (below_curve s (Table cols rows) R d i L H).
Qed.

Lemma C85_reported_holds :
  forall s cols rows, Forall (fun a => (ax_lower a <= ax_upper a)%Qc) (sp_axes s) ->
  valid_queries s (Table cols rows) <> NoDimension.
Proof. intros s cols rows F. exact (dimension_found s (Table cols rows) F). Qed.

Lemma C85_below_refuted_holds :
  exists s rows, sp_wf s /\ valid_queries s (Table 2 rows) = Below 0 0 /\
  (forall j, ~ undercuts s rows 0 j) /\ (forall j, ~ exceeds s rows 0 j) /\ undercuts s rows 1 0.
Proof.
  exists (Spl [BezierAxis 1; BezierAxis 1] [[0; 0]; [1; 0]; [0; 1]; [1; 1]]%Qc None), [[qc 1 2; - (1)]%Qc].
  split; [split; [repeat constructor|split; reflexivity]|]. split; [reflexivity|].
  split; [|split].
  - intros [|[|j]] (a & r & u & Ha & Hr & Hu & C); try discriminate; injection Hr as <-; injection Ha as <-; injection Hu as <-; discriminate C.
  - intros [|[|j]] (a & r & u & Ha & Hr & Hu & C); try discriminate; injection Hr as <-; injection Ha as <-; injection Hu as <-; discriminate C.
  - exists (BezierAxis 1), [qc 1 2; - (1)]%Qc, (- (1))%Qc. repeat split.
Qed.

Lemma C86_clamped_holds :
  forall tol s, (0 < tol)%Qc -> sp_wf s -> one_family s -> Forall (ends_clear tol) (sp_axes s) ->
  clamped_knot_vectors tol s = true <-> Forall open_ends (sp_axes s).
Proof. intros tol s. exact (clamped_iff tol s). Qed.

Lemma C86_corners_holds :
  forall tol s ups d, (0 < tol)%Qc -> sp_wf s -> one_family s -> Forall (ends_clear tol) (sp_axes s) ->
  Forall ends_not_excess (sp_axes s) -> clamped_knot_vectors tol s = true ->
  length ups = length (sp_axes s) ->
  (forall ws, sp_weights s = Some ws -> nth (flat_id (sp_res s) (corner_index s ups)) ws 0%Qc <> 0%Qc) ->
  sp_value s (corner_at s ups) d = net (sp_res s) (sp_cps s) d (corner_index s ups).
Proof.
  intros tol s ups d T W F E X C L P. apply corner_value; auto.
  apply (proj1 (clamped_iff tol s T W F E)) in C. destruct W as (W & _). clear - W C X.
  rewrite Forall_forall in *. intros a Ha. apply open_clamped; auto.
Qed.

Lemma C85_example_holds :
  let s := Spl [KnotAxis 2 [0; 0; 0; qc 1 2; 1; 1; 1]%Qc; KnotAxis 1 [0; 0; inj 2; inj 2]%Qc]
               (map (fun i => [inj i; inj (i * i)]) (seq 0 8)) (Some (map (fun i => inj (i + 1)) (seq 0 8))) in
  sp_wf s /\ one_family s /\ Forall (ends_clear (qc 1 1000)) (sp_axes s) /\ Forall ends_not_excess (sp_axes s) /\
  valid_queries s (Table 2 [[0; inj 2]; [1; 1]]%Qc) = Valid /\
  valid_queries s (Table 2 [[0; 0]; [1; inj 3]; [1; inj 3]]%Qc) = Above 1 1 /\
  valid_queries s (Table 1 [[0]]%Qc) = Mismatch /\
  clamped_knot_vectors (qc 1 1000) s = true /\
  clamped_knot_vectors (qc 1 1000) (Spl [KnotAxis 1 [0; qc 1 2; 1; 1]%Qc] [[0]; [1]]%Qc None) = false.
Proof.
  cbn zeta. split; [|split; [|split; [|split]]].
  - split; [|split; reflexivity].
    constructor; [|constructor; [|constructor]]; apply knot_vector_dec; vm_compute; reflexivity.
  - right. repeat constructor; eexists; eexists; reflexivity.
  - constructor; [|constructor; [|constructor]]; cbn [ends_clear]; intros y e Hy He;
      repeat (destruct Hy as [<-|Hy]; [destruct He as [-> | ->]; ((left; reflexivity) || (right; discriminate))|]); destruct Hy.
  - constructor; [|constructor; [|constructor]]; split; reflexivity.
  - repeat split; reflexivity.
Qed.

