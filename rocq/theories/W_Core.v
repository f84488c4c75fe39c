(** Concrete splines for the property cache: examples and counterexamples. *)
From Coq Require Import List Arith ZArith Bool QArith Qcanon Lia.
From Verif Require Import Base BaseQc S_Spline S_Value M_Core S_Core P_Core P_State
  M_Elevate S_Elevate P_Elevate.
Import ListNotations.
Local Open Scope nat_scope.

Definition okb (o : outcome) : bool := match o with Done _ => true | Raised _ => false end.
Definition state_of (o : outcome) : state := match o with Done st | Raised st => st end.
Lemma done_eq o : okb o = true -> o = Done (state_of o).
Proof. destruct o; [reflexivity|discriminate]. Qed.
Lemma raised_eq o : okb o = false -> o = Raised (state_of o).
Proof. destruct o; [discriminate|reflexivity]. Qed.
Definition get {A} (d : A) (x : option A) : A := match x with Some a => a | None => d end.
Definition someb {A} (x : option A) : bool := match x with Some _ => true | None => false end.
Lemma some_eq {A} (d : A) x : someb x = true -> x = Some (get d x).
Proof. destruct x; [reflexivity|discriminate]. Qed.
Definition no_spline : spline := Spl [] [] None.

(** Readable forms. *)
Definition qs (l : list Qc) : list Q := map this l.
Definition qss (l : list (list Qc)) : list (list Q) := map qs l.

(** * Inputs *)
Definition in_bsp : inputs :=
  Inputs (Some [1%Z]) (Some [[0; 0; 1; 1]%Qc]) (Some [[0]; [1]]%Qc) None.
Definition in_nurbs : inputs :=
  Inputs (Some [1%Z]) (Some [[0; 0; 1; 1]%Qc]) (Some [[0]; [1]]%Qc) (Some [1; 1]%Qc).
Definition six : list (list Qc) := map (fun n => [inj n]) (seq 0 6).
Definition in_bez : inputs :=
  Inputs (Some [1; 2]%Z) None (Some six) None.
(** Knots below -1. *)
Definition in_low : inputs :=
  Inputs (Some [1%Z]) (Some [[qc (-2) 1; qc (-2) 1; qc 3 1; qc 3 1]]) (Some [[0]; [1]]%Qc) None.

Lemma complete_bsp : complete CBSpline in_bsp [1%Z] (Some [[0; 0; 1; 1]%Qc]) [[0]; [1]]%Qc None.
Proof. cbn. repeat split; discriminate. Qed.
Lemma complete_nurbs :
  complete CNurbs in_nurbs [1%Z] (Some [[0; 0; 1; 1]%Qc]) [[0]; [1]]%Qc (Some [1; 1]%Qc).
Proof. cbn. repeat split; discriminate. Qed.
Lemma complete_bez :
  complete CBezier in_bez [1; 2]%Z None six None.
Proof. cbn. repeat split. Qed.
Lemma complete_low : complete CBSpline in_low [1%Z]
  (Some [[qc (-2) 1; qc (-2) 1; qc 3 1; qc 3 1]]) [[0]; [1]]%Qc None.
Proof. cbn. repeat split; discriminate. Qed.

(** [st] after [ops] on a spline constructed from [i]. *)
Definition start (c : cls) (i : inputs) : state := state_of (construct 3 c i).
Definition after (c : cls) (i : inputs) (ops : list op) : state :=
  get empty (run 3 c (start c i) ops).
Definition fine (c : cls) (i : inputs) (ops : list op) : bool :=
  okb (construct 3 c i) && someb (s_core (start c i)) && someb (run 3 c (start c i) ops).

Lemma reached_fine c i ops degs kvs cps ws : complete c i degs kvs cps ws ->
  Forall sensible ops -> fine c i ops = true -> reached 3 c ops (after c i ops).
Proof.
  intros C S0 F. unfold fine in F. apply andb_prop in F. destruct F as [F F3].
  apply andb_prop in F. destruct F as [F1 F2].
  exists i, degs, kvs, cps, ws, (start c i), (get no_spline (s_core (start c i))).
  split; [exact C|]. split; [apply done_eq, F1|]. split; [apply some_eq, F2|]. split; [exact S0|].
  apply some_eq, F3.
Qed.

(** * C30 *)
Lemma low_consistent : consistent [1%Z] (Some [[qc (-2) 1; qc (-2) 1; qc 3 1; qc 3 1]])
  [[0]; [1]]%Qc None.
Proof.
  refine (conj _ (conj _ (conj _ (conj _ I)))); [discriminate| | |reflexivity].
  - constructor; [|constructor]. split; [lia|]. split; [|cbn; lia].
    intros i j Hij Hj. cbn in Hj.
    do 4 (destruct i as [|i]; [do 4 (destruct j as [|j]; [try lia; cbn; discriminate|]); lia|]). lia.
  - exists 1. split; [lia|]. repeat constructor.
Qed.
Lemma low_rejected : rejected 3 CBSpline in_low.
Proof. eexists. apply raised_eq. vm_compute. reflexivity. Qed.

(** * C26 *)
(** Rejected degrees: the core still has degree 1, the spline reads 5. *)
Lemma degrees_stay :
  exists st', step 3 CBSpline (after CBSpline in_bsp []) (SetDegrees [5%Z]) = Raised st' /\
    fst (get_degrees st') = Some [5%Z] /\
    fst (get_degrees (after CBSpline in_bsp [])) = Some [1%Z].
Proof. eexists. split; [apply raised_eq; vm_compute; reflexivity|]. split; vm_compute; reflexivity. Qed.

(** Rejected control points: three rows are read; the core keeps two. *)
Lemma cps_stay :
  exists st', step 3 CBSpline (after CBSpline in_bsp []) (SetCps [[0]; [1]; [1]]%Qc) = Raised st' /\
    reads st' <> reads (after CBSpline in_bsp []) /\
    alive (after CBSpline in_bsp []) /\ ~ alive st'.
Proof.
  eexists. split; [apply raised_eq; vm_compute; reflexivity|]. split.
  - intros H. apply (f_equal (fun r => option_map qss (snd (fst (fst r))))) in H.
    vm_compute in H. discriminate.
  - split.
    + unfold alive.
      set (v := s_view _). assert (E : v = Some 1) by (vm_compute; reflexivity). rewrite E. clear v E.
      assert (E : s_cps (after CBSpline in_bsp []) =
                  Some (get (Arr false false 0 []) (s_cps (after CBSpline in_bsp []))))
        by (apply some_eq; vm_compute; reflexivity).
      eexists. split; [exact E|]. vm_compute. reflexivity.
    + unfold alive. set (v := s_view _). assert (E : v = Some 1) by (vm_compute; reflexivity).
      rewrite E. clear v E. intros [a [E1 E2]].
      assert (E : option_map a_mem (s_cps (state_of (step 3 CBSpline (after CBSpline in_bsp [])
                  (SetCps [[0]; [1]; [1]]%Qc)))) = Some 1) by (rewrite E1; cbn; congruence).
      vm_compute in E. discriminate.
Qed.

(** * C27 *)
Definition knot_ops : list op :=
  [SetCps [[0]; [1 + 1]]%Qc; EditKvs (map (map (fun x => x + x)%Qc))].
Lemma knot_ops_reached : reached 3 CBSpline knot_ops (after CBSpline in_bsp knot_ops).
Proof.
  eapply reached_fine; [apply complete_bsp| |vm_compute; reflexivity].
  repeat constructor. intros k. cbn. rewrite map_map. apply map_ext. intros. apply map_length.
Qed.
(** The knots read are 0 0 2 2, those of the core 0 0 1 1. *)
Lemma knot_ops_core :
  exists s, s_core (after CBSpline in_bsp knot_ops) = Some s /\
            ~ knots_agree (after CBSpline in_bsp knot_ops) s.
Proof.
  exists (get no_spline (s_core (after CBSpline in_bsp knot_ops))).
  split; [apply some_eq; vm_compute; reflexivity|].
  intros [kvs [E F]]. apply knot_axes_kvs in F. destruct F as [_ F].
  apply (f_equal (option_map qss)) in E. cbn [option_map] in E. rewrite <- F in E.
  vm_compute in E. discriminate.
Qed.

Definition index_ops : list op := [ReadMi; SetDegrees [2; 1]%Z].
Lemma index_ops_reached : reached 3 CBezier index_ops (after CBezier in_bez index_ops).
Proof.
  eapply reached_fine; [apply complete_bez| |vm_compute; reflexivity]. repeat constructor.
Qed.
Lemma index_ops_core :
  exists s, s_core (after CBezier in_bez index_ops) = Some s /\
            ~ index_agrees (after CBezier in_bez index_ops) s.
Proof.
  exists (get no_spline (s_core (after CBezier in_bez index_ops))).
  split; [apply some_eq; vm_compute; reflexivity|].
  intros E. unfold index_agrees in E. vm_compute in E. discriminate.
Qed.

(** A long history: every kind of operation on a NURBS. *)
Definition all_ops : list op :=
  [ReadCps; EditCps (map (map (fun x => x + 1)%Qc)); SetWs [1; 1 + 1]%Qc;
   EditWs (map (fun x => x + 1)%Qc); SetKvs [[0; 0; qc 1 2; qc 1 2]]%Qc;
   EditKvs (map (map (fun x => x + x)%Qc)); ReadKvs; SetCps [[1]; [0]]%Qc; ReadMi;
   Mutate (fun s => s); ReadDegrees; ReadWs; SetCps [[0]; [1]]%Qc].
Lemma all_ops_reached : reached 3 CNurbs all_ops (after CNurbs in_nurbs all_ops).
Proof.
  eapply reached_fine; [apply complete_nurbs| |vm_compute; reflexivity].
  unfold all_ops. repeat (apply Forall_cons; [first [exact I|idtac]|]); [| |constructor].
  - intros k. rewrite map_map. apply map_ext. intros. apply map_length.
  - intros s. repeat split; auto.
Qed.
Lemma all_ops_attached : attached_edits false all_ops /\ index_kept false all_ops.
Proof. cbn. repeat split. Qed.

(** * C52: control points assigned after the properties were cleared *)
Definition clear_ops : list op := [Mutate (fun s => s)].
Lemma clear_ops_reached : reached 3 CNurbs clear_ops (after CNurbs in_nurbs clear_ops).
Proof.
  eapply reached_fine; [apply complete_nurbs| |vm_compute; reflexivity].
  repeat constructor; auto.
Qed.
Lemma clear_ops_ignored :
  exists st' s', step 3 CNurbs (after CNurbs in_nurbs clear_ops) (SetCps [[1]; [0]]%Qc) = Done st' /\
    s_core st' = Some s' /\ sp_cps s' <> [[1]; [0]]%Qc.
Proof.
  eexists _, (get no_spline (s_core (state_of (step 3 CNurbs (after CNurbs in_nurbs clear_ops)
                                                  (SetCps [[1]; [0]]%Qc))))).
  split; [apply done_eq; vm_compute; reflexivity|].
  split; [apply some_eq; vm_compute; reflexivity|].
  intros H. apply (f_equal qss) in H. vm_compute in H. discriminate.
Qed.
Lemma clear_ops_ignored_ws :
  exists st' s', step 3 CNurbs (after CNurbs in_nurbs clear_ops) (SetWs [1; 1 + 1]%Qc) = Done st' /\
    s_core st' = Some s' /\ sp_weights s' <> Some [1; 1 + 1]%Qc.
Proof.
  eexists _, (get no_spline (s_core (state_of (step 3 CNurbs (after CNurbs in_nurbs clear_ops)
                                                  (SetWs [1; 1 + 1]%Qc))))).
  split; [apply done_eq; vm_compute; reflexivity|].
  split; [apply some_eq; vm_compute; reflexivity|].
  intros H. apply (f_equal (option_map qs)) in H. vm_compute in H. discriminate.
Qed.

(** * C53: control points become read-only *)
Definition frozen_ops : list op := [ReadCps; ReadWs].
Lemma frozen_ops_reached : reached 3 CBSpline frozen_ops (after CBSpline in_bsp frozen_ops).
Proof. eapply reached_fine; [apply complete_bsp| |vm_compute; reflexivity]. repeat constructor. Qed.
Lemma frozen_ops_raises :
  exists st', step 3 CBSpline (after CBSpline in_bsp frozen_ops) (EditCps (fun p => p)) = Raised st'.
Proof. eexists. apply raised_eq. vm_compute. reflexivity. Qed.

(** * C54 *)
Lemma elevate_partly :
  exists st' s', elevate_degrees simple_elev (after CBezier in_bez [ReadDegrees]) [5; 0]%Z = Some (Raised st') /\
    s_core st' = Some s' /\ map ax_degree (sp_axes s') = [2; 2] /\
    fst (get_degrees st') = Some [1; 2]%Z.
Proof.
  pose (o := elevate_degrees simple_elev (after CBezier in_bez [ReadDegrees]) [5; 0]%Z).
  pose (st' := state_of (get (Done empty) o)).
  exists st', (get no_spline (s_core st')).
  refine (conj _ (conj _ (conj _ _))).
  - assert (E : o = Some (get (Done empty) o)) by (apply some_eq; vm_compute; reflexivity).
    assert (R : get (Done empty) o = Raised st') by (apply raised_eq; vm_compute; reflexivity).
    rewrite R in E. exact E.
  - apply some_eq. vm_compute. reflexivity.
  - vm_compute. reflexivity.
  - vm_compute. reflexivity.
Qed.
Lemma elevate_nothing elev st s : s_core st = Some s -> elevate_degrees elev st [] = None.
Proof. intros E. unfold elevate_degrees. rewrite E. reflexivity. Qed.
