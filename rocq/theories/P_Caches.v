(** Proofs about the caches of a multipatch. *)
From Coq Require Import List Arith ZArith Bool Lia QArith Qcanon Sorted.
From Verif Require Import Base BaseQc M_Boundaries S_Boundaries P_Boundaries M_Patches S_Patches.
Import ListNotations.
Local Open Scope nat_scope.

Lemma sorted_seq_filter (p : nat -> bool) n : forall a, StronglySorted lt (filter p (seq a n)).
Proof.
  induction n as [|n IH]; intros a; cbn; [constructor|]. destruct (p a); [|apply IH].
  constructor; [apply IH|]. apply Forall_forall. intros x H. apply filter_In in H as [H _]. apply in_seq in H. lia.
Qed.
Lemma sorted_where p t : StronglySorted lt (where_is p t).
Proof. apply sorted_seq_filter. Qed.

Lemma where_right_all t bid : (bid < 0)%Z -> right_ids t bid (where_is (fun v => v <? 0)%Z t).
Proof.
  intros H. split; [apply sorted_where|]. intros i. rewrite in_where, Z.ltb_lt. intuition lia.
Qed.
Lemma where_right_one t bid : (0 < bid)%Z -> right_ids t bid (where_is (Z.eqb (- bid)) t).
Proof.
  intros H. split; [apply sorted_where|]. intros i. rewrite in_where, Z.eqb_eq. intuition lia.
Qed.
Lemma right_ids_neg t bid bid' l : (bid < 0)%Z -> (bid' < 0)%Z -> right_ids t bid l -> right_ids t bid' l.
Proof. intros H H' [A B]. split; [easy|]. intros i. rewrite B. intuition lia. Qed.
Lemma right_ids_edit t t' bid l : (bid < 0)%Z -> boundary_edit t t' -> right_ids t bid l -> right_ids t' bid l.
Proof.
  intros H [E1 E2] [A B]. split; [easy|]. intros i. rewrite B, E1.
  split; intros (X & Y & _); refine (conj X (conj _ _)); try lia.
  - now apply (proj2 (E2 i X)).
  - destruct (Z.lt_ge_cases (nth i t 0%Z) 0) as [Z|Z]; [easy|]. pose proof (proj1 (E2 i X) Z). lia.
Qed.

Section Cache.
Variables P B O : Type.
Variable sub_of : P -> B.
Variable conn_of : P -> list Z.
Variable boundary_of : P -> list nat -> B.
Variable faces_of : P -> nat.
Variable orient_of : P -> nat * nat * nat * nat -> Qc -> O.
Hypothesis faces_pos : forall p, 0 < faces_of p.

Notation mp := (multipatch P B O).
Notation mstep := (mstep P B O sub_of conn_of boundary_of faces_of orient_of).
Notation mrun := (mrun P B O sub_of conn_of boundary_of faces_of orient_of).
Notation right_answer := (right_answer P B O sub_of conn_of boundary_of faces_of orient_of).
Notation table_of := (table_of P conn_of).
Notation gstep := (gstep P conn_of).
Notation grun := (grun P conn_of).
Notation right_lines := (right_lines P O faces_of orient_of).
Notation plain := (plain P).
Notation gentle := (gentle P).

Lemma lines_right p t tol :
  right_lines p t tol (map (fun l => (l, orient_of p l tol)) (lines (faces_of p) t)).
Proof.
  unfold lines. eexists. split; [|split; [|]].
  3:{ rewrite map_map.
      assert (forall l, (forall i, In i l -> (0 <= nth i t 0)%Z) ->
        Forall2 (fun i e => exists p1 f1 p2 f2, e = (p1, f1, p2, f2, orient_of p (p1, f1, p2, f2) tol) /\
          f1 < faces_of p /\ f2 < faces_of p /\ i = p1 * faces_of p + f1 /\
          nth i t 0%Z = Z.of_nat (p2 * faces_of p + f2)) l
          (map (fun x => (let j := Z.to_nat (nth x t 0%Z) in (x / faces_of p, x mod faces_of p, j / faces_of p, j mod faces_of p),
             orient_of p (let j := Z.to_nat (nth x t 0%Z) in (x / faces_of p, x mod faces_of p, j / faces_of p, j mod faces_of p)) tol)) l)) as X.
      { induction l as [|i l IH]; intros H; cbn [map]; [constructor|]. constructor.
        - pose proof (faces_pos p) as F. do 4 eexists. split; [reflexivity|].
          pose proof (H i (or_introl eq_refl)) as N.
          refine (conj _ (conj _ (conj _ _))).
          + apply Nat.mod_upper_bound. lia.
          + apply Nat.mod_upper_bound. lia.
          + rewrite (Nat.div_mod i (faces_of p)) at 1; lia.
          + rewrite Nat.mul_comm, <- Nat.div_mod by lia. lia.
        - apply IH. intros; apply H; now right. }
      apply X. intros i Hi. apply filter_In in Hi as [_ Hi]. apply andb_true_iff in Hi as [Hi _]. now apply Z.leb_le. }
  - apply sorted_seq_filter.
  - intros i. rewrite filter_In, in_seq, andb_true_iff, Z.leb_le, Z.ltb_lt. intuition lia.
Qed.
Lemma right_lines_edit p t t' tol o : boundary_edit t t' -> right_lines p t tol o -> right_lines p t' tol o.
Proof.
  intros [E1 E2] (l & A & C & F). exists l. refine (conj A (conj _ _)).
  - intros i. rewrite C, E1. split; intros [X Y]; split; try easy.
    + rewrite (proj1 (E2 i X)); lia.
    + destruct (Z.lt_ge_cases (nth i t 0%Z) 0) as [Z|Z]; [pose proof (proj2 (E2 i X) Z); lia|].
      rewrite <- (proj1 (E2 i X)); lia.
  - assert (forall i, In i l -> nth i t' 0%Z = nth i t 0%Z) as X.
    { intros i H. apply C in H as [H1 H2]. apply (E2 i H1). lia. }
    clear A C. induction F as [|i e l' o' (p1 & f1 & p2 & f2 & H) F IH]; constructor.
    + exists p1, f1, p2, f2. rewrite X by now left. exact H.
    + apply IH. intros j Hj. apply X. now right.
Qed.

(** The stored patches and interfaces are the given ones. *)
Definition base (g : given_state P) (m : mp) : Prop :=
  m_patches _ _ _ m = gs_patches _ g /\
  match m_conn _ _ _ m with Some t => t = table_of g | None => gs_table _ g = None end.

Lemma get_false_base g m : base g m ->
  let (m', t) := get_interfaces P B O conn_of false m in
  base g m' /\ t = table_of g /\ m_patches _ _ _ m' = m_patches _ _ _ m /\
  m_sub _ _ _ m' = m_sub _ _ _ m /\ m_py_sub _ _ _ m' = m_py_sub _ _ _ m /\
  m_bpids _ _ _ m' = m_bpids _ _ _ m /\ m_bmp _ _ _ m' = m_bmp _ _ _ m /\ m_py_bmp _ _ _ m' = m_py_bmp _ _ _ m /\
  (m_orient _ _ _ m' = m_orient _ _ _ m \/ m_orient _ _ _ m' = []) /\ m_conn _ _ _ m' = Some t.
Proof.
  intros [H1 H2]. unfold get_interfaces. destruct (m_conn _ _ _ m) as [t|] eqn:E.
  - refine (conj (conj H1 _) _); [now rewrite E|]. repeat (split; [easy|]). split; [now left|easy].
  - unfold base, S_Patches.table_of in *; cbn. rewrite H2, H1. repeat (split; [easy|]). split; [now right|easy].
Qed.

Definition bids (bid : Z) (m : mp) := boundary_patch_ids P B O conn_of bid m.
Lemma ids_base g m bid : base g m -> let (m', l) := bids bid m in
  base g m' /\ m_patches _ _ _ m' = m_patches _ _ _ m /\
  m_sub _ _ _ m' = m_sub _ _ _ m /\ m_py_sub _ _ _ m' = m_py_sub _ _ _ m /\
  m_bmp _ _ _ m' = m_bmp _ _ _ m /\ m_py_bmp _ _ _ m' = m_py_bmp _ _ _ m /\
  (m_orient _ _ _ m' = m_orient _ _ _ m \/ m_orient _ _ _ m' = []) /\
  ((0 < bid)%Z -> right_ids (table_of g) bid l) /\
  ((0 <= bid)%Z -> m_bpids _ _ _ m' = m_bpids _ _ _ m) /\
  ((bid < 0)%Z -> m_bpids _ _ _ m' = l /\ (m_bpids _ _ _ m = [] \/ l = m_bpids _ _ _ m) /\
                  (m_bpids _ _ _ m = [] -> right_ids (table_of g) bid l)).
Proof.
  intros H. unfold bids, boundary_patch_ids.
  destruct (Z.ltb_spec bid 0) as [N|N]; cbn [andb].
  - destruct (Nat.eqb_spec (length (m_bpids _ _ _ m)) 0) as [Z|Z]; cbn [negb].
    + pose proof (get_false_base g m H) as G. destruct (get_interfaces _ _ _ conn_of false m) as [m' t].
      destruct G as (G1 & G2 & G3 & G4 & G5 & G6 & G7 & G8 & G9 & G10).
      destruct G1 as [G1a G1b].
      unfold base; cbn. refine (conj (conj G1a G1b) _). repeat (split; [easy|]). split; [lia|]. split; [lia|].
      intros _. refine (conj eq_refl (conj _ _)); [left; now apply length_zero_iff_nil|].
      intros _. subst t. now apply where_right_all.
    + refine (conj H _). repeat (split; [easy|]). split; [now left|]. split; [lia|]. split; [lia|].
      intros _. refine (conj eq_refl (conj (or_intror eq_refl) _)). intros E. now rewrite E in Z.
  - pose proof (get_false_base g m H) as G. destruct (get_interfaces _ _ _ conn_of false m) as [m' t].
    destruct G as (G1 & G2 & G3 & G4 & G5 & G6 & G7 & G8 & G9 & G10).
    refine (conj G1 _). repeat (split; [easy|]). split; [intros X; subst t; now apply where_right_one|].
    split; [easy|lia].
Qed.

Lemma bmp_base g m bid : base g m -> let (m', b) := boundary_multipatch P B O conn_of boundary_of bid m in
  base g m' /\ m_patches _ _ _ m' = m_patches _ _ _ m /\
  m_sub _ _ _ m' = m_sub _ _ _ m /\ m_py_sub _ _ _ m' = m_py_sub _ _ _ m /\
  m_py_bmp _ _ _ m' = m_py_bmp _ _ _ m /\
  (m_orient _ _ _ m' = m_orient _ _ _ m \/ m_orient _ _ _ m' = []) /\
  ((0 < bid)%Z -> exists l, b = boundary_of (gs_patches _ g) l /\ right_ids (table_of g) bid l) /\
  ((0 <= bid)%Z -> m_bpids _ _ _ m' = m_bpids _ _ _ m /\ m_bmp _ _ _ m' = m_bmp _ _ _ m) /\
  ((bid < 0)%Z -> m_bmp _ _ _ m' = Some b /\
     (m_bpids _ _ _ m' = m_bpids _ _ _ m \/
      m_bpids _ _ _ m = [] /\ right_ids (table_of g) bid (m_bpids _ _ _ m')) /\
     (m_bmp _ _ _ m = None -> m_bpids _ _ _ m = [] \/ right_ids (table_of g) bid (m_bpids _ _ _ m) ->
        exists l, b = boundary_of (gs_patches _ g) l /\ right_ids (table_of g) bid l) /\
     (m_bmp _ _ _ m = None \/ m_bmp _ _ _ m = Some b)).
Proof.
  intros H. unfold boundary_multipatch.
  pose proof (ids_base g m bid H) as I. unfold bids in I.
  destruct (if (bid <? 0)%Z then m_bmp _ _ _ m else None) as [b|] eqn:E.
  - destruct (Z.ltb_spec bid 0) as [N|N]; [|easy].
    refine (conj H _). repeat (split; [easy|]). split; [now left|]. split; [lia|]. split; [lia|].
    intros _. refine (conj E (conj (or_introl eq_refl) (conj _ (or_intror E)))). congruence.
  - destruct (boundary_patch_ids _ _ _ conn_of bid m) as [m' l].
    destruct I as (I1 & I2 & I3 & I4 & I5 & I6 & I7 & I8 & I9 & I10).
    destruct I1 as [I1a I1b].
    destruct (Z.ltb_spec bid 0) as [N|N].
    + unfold base; cbn. refine (conj (conj I1a I1b) _). repeat (split; [easy|]). split; [lia|]. split; [lia|].
      intros _. destruct (I10 N) as (J1 & J2 & J3). rewrite J1. refine (conj eq_refl (conj _ (conj _ _))).
      * destruct J2 as [J2|J2]; [right; auto|left; easy].
      * intros _ Q. exists l. rewrite I1a. split; [easy|]. destruct Q as [Q|Q]; [auto|].
        destruct J2 as [J2|J2]; [auto|]. now rewrite J2.
      * now left.
    + refine (conj (conj I1a I1b) _). repeat (split; [easy|]).
      split; [intros X; exists l; rewrite I1a; auto|]. split; [auto|lia].
Qed.

Lemma pybmp_base g m bid : base g m -> let (m', b) := py_boundary_multipatch P B O conn_of boundary_of bid m in
  base g m' /\ m_patches _ _ _ m' = m_patches _ _ _ m /\
  m_sub _ _ _ m' = m_sub _ _ _ m /\ m_py_sub _ _ _ m' = m_py_sub _ _ _ m /\
  (m_orient _ _ _ m' = m_orient _ _ _ m \/ m_orient _ _ _ m' = []) /\
  ((0 < bid)%Z -> exists l, b = boundary_of (gs_patches _ g) l /\ right_ids (table_of g) bid l) /\
  ((0 <= bid)%Z -> m_bpids _ _ _ m' = m_bpids _ _ _ m /\ m_bmp _ _ _ m' = m_bmp _ _ _ m /\
                   m_py_bmp _ _ _ m' = m_py_bmp _ _ _ m) /\
  ((bid < 0)%Z -> m_py_bmp _ _ _ m' = Some b /\
     (m_bpids _ _ _ m' = m_bpids _ _ _ m \/
      m_bpids _ _ _ m = [] /\ right_ids (table_of g) bid (m_bpids _ _ _ m')) /\
     (m_py_bmp _ _ _ m = Some b /\ m_bmp _ _ _ m' = m_bmp _ _ _ m \/
      m_py_bmp _ _ _ m = None /\ m_bmp _ _ _ m = Some b /\ m_bmp _ _ _ m' = Some b \/
      m_py_bmp _ _ _ m = None /\ m_bmp _ _ _ m = None /\ m_bmp _ _ _ m' = Some b /\
       (m_bpids _ _ _ m = [] \/ right_ids (table_of g) bid (m_bpids _ _ _ m) ->
        exists l, b = boundary_of (gs_patches _ g) l /\ right_ids (table_of g) bid l))).
Proof.
  intros H. unfold py_boundary_multipatch. pose proof (bmp_base g m bid H) as I.
  destruct (Z.ltb_spec bid 0) as [N|N].
  - destruct (m_py_bmp _ _ _ m) as [b|] eqn:E.
    + refine (conj H _). repeat (split; [easy|]). split; [now left|]. split; [lia|]. split; [lia|]. intros _. auto.
    + destruct (boundary_multipatch _ _ _ conn_of boundary_of bid m) as [m' b].
      destruct I as (I1 & I2 & I3 & I4 & I5 & I6 & I7 & I8 & I9). destruct I1 as [I1a I1b].
      destruct (I9 N) as (J1 & J2 & J3 & J4).
      unfold base; cbn. refine (conj (conj I1a I1b) _). repeat (split; [easy|]). try (split; [lia|]).
      intros _. refine (conj eq_refl (conj J2 _)). right. destruct J4 as [J4|J4].
      * right. refine (conj eq_refl (conj J4 (conj J1 _))). now apply J3.
      * left. auto.
  - destruct (boundary_multipatch _ _ _ conn_of boundary_of bid m) as [m' b].
    destruct I as (I1 & I2 & I3 & I4 & I5 & I6 & I7 & I8 & I9). destruct (I8 N) as [J1 J2].
    refine (conj I1 (conj I2 (conj I3 (conj I4 (conj I6 (conj I7 (conj _ _))))))); [auto|lia].
Qed.

Lemma base_step g m o : base g m -> base (gstep g o) (fst (mstep m o)).
Proof.
  intros H. destruct o as [p|t|f| | | |bid|bid|tol]; cbn.
  - split; easy.
  - split; [apply H|easy].
  - unfold edit_interfaces. pose proof (get_false_base g m H) as G.
    destruct (get_interfaces _ _ _ conn_of false m) as [m' t]. destruct G as (G1 & G2 & G3 & _).
    split; cbn; [apply G1|]. now subst t.
  - unfold get_interfaces. destruct H as [H _]. destruct (m_conn _ _ _ m); split; cbn; auto;
      unfold S_Patches.table_of; cbn; now rewrite H.
  - pose proof (get_false_base g m H) as G. destruct (get_interfaces _ _ _ conn_of false m) as [m' t]. apply G.
  - unfold py_sub_multipatch. destruct (m_py_sub _ _ _ m); cbn; [easy|]. split; apply H.
  - pose proof (ids_base g m bid H) as G. unfold bids in G. destruct (boundary_patch_ids _ _ _ conn_of bid m). apply G.
  - pose proof (pybmp_base g m bid H) as G. destruct (py_boundary_multipatch _ _ _ conn_of boundary_of bid m). apply G.
  - unfold get_orientations. destruct (m_orient _ _ _ m); [|easy]. pose proof (get_false_base g m H) as G.
    destruct (get_interfaces _ _ _ conn_of false m) as [m' t]. cbn. split; apply G.
Qed.
Lemma grun_app g a b : grun g (a ++ b) = grun (grun g a) b.
Proof. apply fold_left_app. Qed.
Lemma mrun_app m a b : mrun m (a ++ b) = mrun (mrun m a) b.
Proof. apply fold_left_app. Qed.
Lemma base_run ops : forall g m, base g m -> base (grun g ops) (mrun m ops).
Proof.
  unfold S_Patches.grun, M_Patches.mrun. induction ops as [|o ops IH]; intros g m H; cbn [fold_left]; [easy|].
  apply IH. now apply base_step.
Qed.
Lemma base_fresh p : base (Given _ p None) (fresh P B O p).
Proof. split; easy. Qed.

Lemma plain_right g m o : base g m -> plain o -> right_answer (gstep g o) o (snd (mstep m o)).
Proof.
  intros H Q. destruct o as [p|t|f| | | |bid|bid|tol]; cbn; try easy.
  - unfold get_interfaces. destruct H as [H _]. destruct (m_conn _ _ _ m); cbn; now rewrite H.
  - pose proof (get_false_base g m H) as G. destruct (get_interfaces _ _ _ conn_of false m) as [m' t]. cbn.
    destruct G as (_ & -> & _). easy.
  - pose proof (ids_base g m bid H) as G. unfold bids in G. destruct (boundary_patch_ids _ _ _ conn_of bid m) as [m' l].
    cbn. exists l. split; [easy|]. destruct G as (_ & _ & _ & _ & _ & _ & _ & G & _). now apply G.
  - pose proof (pybmp_base g m bid H) as G. destruct (py_boundary_multipatch _ _ _ conn_of boundary_of bid m) as [m' b].
    cbn in *. destruct G as (_ & _ & _ & _ & _ & G & _). destruct (G Q) as (l & -> & R). eauto.
Qed.

(** The cached ids and orientations are empty, or right for the tolerance. *)
Definition lists_ok (tol : Qc) (g : given_state P) (m : mp) : Prop :=
  (m_bpids _ _ _ m = [] \/ right_ids (table_of g) (-1) (m_bpids _ _ _ m)) /\
  (m_orient _ _ _ m = [] \/ right_lines (gs_patches _ g) (table_of g) tol (m_orient _ _ _ m)).
Definition lists_empty (m : mp) : Prop := m_bpids _ _ _ m = [] /\ m_orient _ _ _ m = [].
(** The cached multipatches are absent, or right. *)
Definition sub_ok (g : given_state P) (m : mp) : Prop :=
  (m_sub _ _ _ m = None \/ m_sub _ _ _ m = Some (sub_of (gs_patches _ g))) /\
  (m_py_sub _ _ _ m = None \/ m_py_sub _ _ _ m = Some (sub_of (gs_patches _ g))).
Definition is_boundary (g : given_state P) (b : option B) : Prop :=
  b = None \/ exists l, b = Some (boundary_of (gs_patches _ g) l) /\ right_ids (table_of g) (-1) l.
Definition bnd_ok (g : given_state P) (m : mp) : Prop :=
  is_boundary g (m_bmp _ _ _ m) /\ is_boundary g (m_py_bmp _ _ _ m).
Definition all_empty (m : mp) : Prop :=
  lists_empty m /\ m_sub _ _ _ m = None /\ m_py_sub _ _ _ m = None /\ m_bmp _ _ _ m = None /\ m_py_bmp _ _ _ m = None.

Lemma plain_lists g m o : base g m -> plain o -> lists_empty m -> lists_empty (fst (mstep m o)).
Proof.
  intros H Q [E1 E2]. unfold lists_empty. destruct o as [p|t|f| | | |bid|bid|tol]; cbn in *; try easy.
  - unfold edit_interfaces. pose proof (get_false_base g m H) as G.
    destruct (get_interfaces _ _ _ conn_of false m) as [m' t]. cbn.
    destruct G as (_ & _ & _ & _ & _ & -> & _ & _ & [->| ->] & _); auto.
  - unfold get_interfaces. destruct (m_conn _ _ _ m); cbn; auto.
  - pose proof (get_false_base g m H) as G. destruct (get_interfaces _ _ _ conn_of false m) as [m' t]. cbn.
    destruct G as (_ & _ & _ & _ & _ & -> & _ & _ & [->| ->] & _); auto.
  - pose proof (ids_base g m bid H) as G. unfold bids in G. destruct (boundary_patch_ids _ _ _ conn_of bid m) as [m' l].
    cbn. destruct G as (_ & _ & _ & _ & _ & _ & G1 & _ & G & _). rewrite G by lia. destruct G1 as [-> | ->]; auto.
  - pose proof (pybmp_base g m bid H) as G. destruct (py_boundary_multipatch _ _ _ conn_of boundary_of bid m) as [m' b].
    cbn in *. destruct G as (_ & _ & _ & _ & G1 & _ & G & _). destruct (G ltac:(lia)) as (-> & _).
    destruct G1 as [-> | ->]; auto.
Qed.
Lemma plain_empty g m o : base g m -> plain o -> all_empty m -> all_empty (fst (mstep m o)).
Proof.
  intros H Q (L & E1 & E2 & E3 & E4). split; [now apply (plain_lists g)|].
  destruct o as [p|t|f| | | |bid|bid|tol]; cbn in *; try easy.
  - unfold edit_interfaces. pose proof (get_false_base g m H) as G.
    destruct (get_interfaces _ _ _ conn_of false m) as [m' t]. cbn.
    destruct G as (_ & _ & _ & -> & -> & _ & -> & -> & _). auto.
  - unfold get_interfaces. destruct (m_conn _ _ _ m); cbn; auto.
  - pose proof (get_false_base g m H) as G. destruct (get_interfaces _ _ _ conn_of false m) as [m' t]. cbn.
    destruct G as (_ & _ & _ & -> & -> & _ & -> & -> & _). auto.
  - pose proof (ids_base g m bid H) as G. unfold bids in G. destruct (boundary_patch_ids _ _ _ conn_of bid m) as [m' l].
    cbn. destruct G as (_ & _ & -> & -> & -> & -> & _). auto.
  - pose proof (pybmp_base g m bid H) as G. destruct (py_boundary_multipatch _ _ _ conn_of boundary_of bid m) as [m' b].
    cbn in *. destruct G as (_ & _ & -> & -> & _ & _ & G & _). destruct (G ltac:(lia)) as (_ & -> & ->). auto.
Qed.
Lemma plain_lists_run ops : forall g m, base g m -> Forall plain ops -> lists_empty m -> lists_empty (mrun m ops).
Proof.
  unfold M_Patches.mrun. induction ops as [|o ops IH]; intros g m H F E; cbn [fold_left]; [easy|].
  inversion F; subst. eapply IH; [now apply base_step; eauto|easy|]. eapply plain_lists; eauto.
Qed.
Lemma plain_empty_run ops : forall g m, base g m -> Forall plain ops -> all_empty m -> all_empty (mrun m ops).
Proof.
  unfold M_Patches.mrun. induction ops as [|o ops IH]; intros g m H F E; cbn [fold_left]; [easy|].
  inversion F; subst. eapply IH; [now apply base_step; eauto|easy|]. eapply plain_empty; eauto.
Qed.

Lemma gentle_patches tol g o : gentle tol o -> gs_patches _ (gstep g o) = gs_patches _ g /\
  boundary_edit (table_of g) (table_of (gstep g o)).
Proof.
  intros G. destruct o; cbn in *; try easy; try (split; [easy|apply edit_refl]).
Qed.

Lemma lists_edit tol g o m : gentle tol o -> lists_ok tol g m -> lists_ok tol (gstep g o) m.
Proof.
  intros G [H1 H2]. unfold lists_ok. destruct (gentle_patches tol g o G) as [-> E]. split.
  - destruct H1; [now left|]. right. eapply right_ids_edit; eauto. lia.
  - destruct H2; [now left|]. right. eapply right_lines_edit; eauto.
Qed.
Lemma lists_keep tol g m m' : lists_ok tol g m ->
  m_bpids _ _ _ m' = m_bpids _ _ _ m -> m_orient _ _ _ m' = m_orient _ _ _ m \/ m_orient _ _ _ m' = [] ->
  lists_ok tol g m'.
Proof.
  intros [H1 H2] E1 E2. split; [now rewrite E1|]. destruct E2 as [-> | ->]; auto.
Qed.
Lemma lists_keep' tol g m m' : lists_ok tol g m ->
  m_bpids _ _ _ m' = m_bpids _ _ _ m \/
    m_bpids _ _ _ m = [] /\ right_ids (table_of g) (-1) (m_bpids _ _ _ m') ->
  m_orient _ _ _ m' = m_orient _ _ _ m \/ m_orient _ _ _ m' = [] ->
  lists_ok tol g m'.
Proof.
  intros [H1 H2] [E1|[_ E1]] E2; split; [now rewrite E1| |auto|]; destruct E2 as [-> | ->]; auto.
Qed.

Lemma lists_step tol g m o : base g m -> gentle tol o -> lists_ok tol g m ->
  lists_ok tol (gstep g o) (fst (mstep m o)).
Proof.
  intros H G L. destruct o as [p|t|f| | | |bid|bid|tol']; try easy.
  - apply (lists_edit tol g _ _ G) in L. eapply lists_keep; [exact L| |]; cbn; unfold edit_interfaces;
      pose proof (get_false_base g m H) as I; destruct (get_interfaces _ _ _ conn_of false m) as [m' t];
      cbn; apply I.
  - cbn. pose proof (get_false_base g m H) as I; destruct (get_interfaces _ _ _ conn_of false m) as [m' t].
    eapply lists_keep; [exact L| |]; apply I.
  - cbn. unfold py_sub_multipatch. destruct (m_py_sub _ _ _ m); [easy|]. eapply lists_keep; [exact L|easy|now left].
  - cbn. pose proof (ids_base g m bid H) as I. unfold bids in I. destruct (boundary_patch_ids _ _ _ conn_of bid m) as [m' l].
    destruct I as (_ & _ & _ & _ & _ & _ & I1 & _ & I2 & I3). eapply lists_keep'; [exact L| |exact I1].
    destruct (Z.lt_ge_cases bid 0) as [N|N]; [|left; auto]. destruct (I3 N) as (J1 & J2 & J3). cbn. rewrite J1.
    destruct J2 as [J2|J2]; [right|left; auto]. split; [easy|].
    apply (right_ids_neg _ bid); [lia|lia|]. auto.
  - cbn. pose proof (pybmp_base g m bid H) as I. destruct (py_boundary_multipatch _ _ _ conn_of boundary_of bid m) as [m' b].
    destruct I as (_ & _ & _ & _ & I1 & _ & I2 & I3). eapply lists_keep'; [exact L| |exact I1].
    destruct (Z.lt_ge_cases bid 0) as [N|N]; [|left; now apply I2]. destruct (I3 N) as (J1 & J2 & J3).
    destruct J2 as [J2|[J2 J4]]; [auto|right]. split; [easy|]. apply (right_ids_neg _ bid); [lia|lia|]. auto.
  - cbn in *. subst tol'. unfold get_orientations. destruct (m_orient _ _ _ m) eqn:E; [|easy].
    pose proof (get_false_base g m H) as I; destruct (get_interfaces _ _ _ conn_of false m) as [m' t].
    destruct I as (I1 & -> & _ & _ & _ & I2 & _). destruct L as [L1 L2]. split; cbn.
    + now rewrite I2.
    + right. destruct I1 as [-> _]. apply lines_right.
Qed.

Lemma lists_right tol g m o : base g m -> gentle tol o -> lists_ok tol g m ->
  match o with ReadSub _ => True | ReadBoundary _ bid => (0 < bid)%Z -> right_answer (gstep g o) o (snd (mstep m o))
  | _ => right_answer (gstep g o) o (snd (mstep m o)) end.
Proof.
  intros H G L. destruct o as [p|t|f| | | |bid|bid|tol']; cbn in G; try easy;
    try (now apply plain_right); try (intros; now apply plain_right).
  - destruct (Z.lt_ge_cases bid 0) as [N|N]; [|apply plain_right; cbn; auto; lia].
    cbn. pose proof (ids_base g m bid H) as I. unfold bids in I. destruct (boundary_patch_ids _ _ _ conn_of bid m) as [m' l].
    destruct I as (_ & _ & _ & _ & _ & _ & I1 & _ & I2 & I3). destruct (I3 N) as (J1 & J2 & J3).
    cbn. exists l. split; [easy|]. destruct L as [[L|L] _]; [auto|].
    destruct J2 as [J2|J2]; [auto|]. rewrite J2. apply (right_ids_neg _ (-1)); [lia|lia|auto].
  - cbn. subst tol'. unfold get_orientations. destruct (m_orient _ _ _ m) as [|e o] eqn:E.
    + pose proof (get_false_base g m H) as I; destruct (get_interfaces _ _ _ conn_of false m) as [m' t].
      cbn. eexists. split; [reflexivity|]. destruct I as ([-> _] & -> & _). apply lines_right.
    + cbn. eexists. split; [reflexivity|]. destruct L as [_ [L|L]]; [congruence|]. now rewrite E in L.
Qed.

Lemma sub_step tol g m o : base g m -> gentle tol o -> sub_ok g m -> sub_ok (gstep g o) (fst (mstep m o)).
Proof.
  intros H G L. unfold sub_ok. rewrite (proj1 (gentle_patches tol g o G)).
  destruct o as [p|t|f| | | |bid|bid|tol']; try easy; cbn.
  - unfold edit_interfaces. pose proof (get_false_base g m H) as I.
    destruct (get_interfaces _ _ _ conn_of false m) as [m' t]. cbn. destruct I as (_ & _ & _ & -> & -> & _). exact L.
  - pose proof (get_false_base g m H) as I.
    destruct (get_interfaces _ _ _ conn_of false m) as [m' t]. cbn. destruct I as (_ & _ & _ & -> & -> & _). exact L.
  - unfold py_sub_multipatch. destruct (m_py_sub _ _ _ m) eqn:E; cbn; [now rewrite E; destruct L as [L1 L2]; rewrite E in L2|].
    destruct L as [[-> | ->] _]; [destruct H as [-> _]|]; auto.
  - pose proof (ids_base g m bid H) as I. unfold bids in I. destruct (boundary_patch_ids _ _ _ conn_of bid m) as [m' l].
    cbn. destruct I as (_ & _ & -> & -> & _). exact L.
  - pose proof (pybmp_base g m bid H) as I. destruct (py_boundary_multipatch _ _ _ conn_of boundary_of bid m) as [m' b].
    cbn. destruct I as (_ & _ & -> & -> & _). exact L.
  - unfold get_orientations. destruct (m_orient _ _ _ m) eqn:E; [|easy].
    pose proof (get_false_base g m H) as I; destruct (get_interfaces _ _ _ conn_of false m) as [m' t].
    cbn. destruct I as (_ & _ & _ & -> & -> & _). exact L.
Qed.
Lemma is_boundary_edit tol g o b : gentle tol o -> is_boundary g b -> is_boundary (gstep g o) b.
Proof.
  intros G [H|(l & H & R)]; [now left|]. right. exists l. destruct (gentle_patches tol g o G) as [-> E].
  split; [easy|]. eapply right_ids_edit; eauto. lia.
Qed.
Lemma bnd_step tol g m o : base g m -> gentle tol o -> lists_ok tol g m -> bnd_ok g m ->
  bnd_ok (gstep g o) (fst (mstep m o)).
Proof.
  intros H G L [K1 K2]. assert (bnd_ok (gstep g o) m) as K by (split; eapply is_boundary_edit; eauto).
  unfold bnd_ok in *. destruct o as [p|t|f| | | |bid|bid|tol']; try easy; cbn.
  - unfold edit_interfaces. pose proof (get_false_base g m H) as I.
    destruct (get_interfaces _ _ _ conn_of false m) as [m' t]. cbn. destruct I as (_ & _ & _ & _ & _ & _ & -> & -> & _).
    exact K.
  - pose proof (get_false_base g m H) as I.
    destruct (get_interfaces _ _ _ conn_of false m) as [m' t]. cbn. destruct I as (_ & _ & _ & _ & _ & _ & -> & -> & _). easy.
  - unfold py_sub_multipatch. destruct (m_py_sub _ _ _ m) eqn:E; cbn; easy.
  - pose proof (ids_base g m bid H) as I. unfold bids in I. destruct (boundary_patch_ids _ _ _ conn_of bid m) as [m' l].
    cbn. destruct I as (_ & _ & _ & _ & -> & -> & _). easy.
  - pose proof (pybmp_base g m bid H) as I. destruct (py_boundary_multipatch _ _ _ conn_of boundary_of bid m) as [m' b].
    destruct I as (_ & _ & _ & _ & I1 & _ & I2 & I3).
    destruct (Z.lt_ge_cases bid 0) as [N|N].
    + destruct (I3 N) as (J1 & J2 & J3). cbn. rewrite J1.
      destruct J3 as [[J3 J4]|[(J3 & J4 & J5)|(J3 & J4 & J5 & J6)]].
      * rewrite J4. rewrite J3 in K2. auto.
      * rewrite J5. rewrite J4 in K1. auto.
      * rewrite J5. assert (is_boundary g (Some b)); [|auto]. right. destruct L as [L _].
        destruct J6 as (l & -> & R).
        { destruct L as [L|L]; [now left|right]. apply (right_ids_neg _ (-1)); [lia|lia|auto]. }
        exists l. split; [easy|]. apply (right_ids_neg _ bid); [lia|lia|auto].
    + cbn. destruct (I2 N) as (_ & -> & ->). auto.
  - unfold get_orientations. destruct (m_orient _ _ _ m) eqn:E; [|easy].
    pose proof (get_false_base g m H) as I; destruct (get_interfaces _ _ _ conn_of false m) as [m' t].
    cbn. destruct I as (_ & _ & _ & _ & _ & _ & -> & -> & _). easy.
Qed.
Lemma all_right tol g m o : base g m -> gentle tol o -> lists_ok tol g m -> sub_ok g m -> bnd_ok g m ->
  right_answer (gstep g o) o (snd (mstep m o)).
Proof.
  intros H G L U K. pose proof (lists_right tol g m o H G L) as R.
  destruct o as [p|t|f| | | |bid|bid|tol']; try easy; cbn in *.
  - unfold py_sub_multipatch. destruct U as [U1 U2]. destruct (m_py_sub _ _ _ m) as [b|]; cbn.
    + destruct U2 as [U2|U2]; congruence.
    + destruct U1 as [-> | ->]; [destruct H as [-> _]|]; easy.
  - destruct (Z.lt_ge_cases bid 0) as [N|N]; [|apply R; lia].
    pose proof (pybmp_base g m bid H) as I. destruct (py_boundary_multipatch _ _ _ conn_of boundary_of bid m) as [m' b].
    destruct I as (_ & _ & _ & _ & _ & _ & _ & I3). destruct (I3 N) as (J1 & J2 & J3). cbn.
    assert (forall b', is_boundary g (Some b') -> exists l, Patches B O b' = Patches _ _ (boundary_of (gs_patches _ g) l) /\
              right_ids (table_of g) bid l) as X.
    { intros b' [X|(l & X & Y)]; [easy|]. injection X as ->. exists l. split; [easy|].
      apply (right_ids_neg _ (-1)); [lia|lia|auto]. }
    destruct K as [K1 K2]. destruct J3 as [[J3 J4]|[(J3 & J4 & J5)|(J3 & J4 & J5 & J6)]].
    + apply X. now rewrite <- J3.
    + apply X. now rewrite <- J4.
    + destruct J6 as (l & -> & Y); [|eauto]. destruct L as [[L|L] _]; [now left|right].
      apply (right_ids_neg _ (-1)); [lia|lia|auto].
Qed.

Lemma lists_run tol ops : forall g m, base g m -> Forall (gentle tol) ops -> lists_ok tol g m ->
  lists_ok tol (grun g ops) (mrun m ops).
Proof.
  unfold M_Patches.mrun, S_Patches.grun. induction ops as [|o ops IH]; intros g m H F E; cbn [fold_left]; [easy|].
  inversion F; subst. apply IH; [now apply base_step; eauto|easy|]. now apply lists_step.
Qed.
Lemma all_run tol ops : forall g m, base g m -> Forall (gentle tol) ops -> lists_ok tol g m -> sub_ok g m -> bnd_ok g m ->
  lists_ok tol (grun g ops) (mrun m ops) /\ sub_ok (grun g ops) (mrun m ops) /\ bnd_ok (grun g ops) (mrun m ops).
Proof.
  unfold M_Patches.mrun, S_Patches.grun. induction ops as [|o ops IH]; intros g m H F E E1 E2; cbn [fold_left]; [easy|].
  inversion F; subst. apply IH; [now apply base_step; eauto|easy|now apply lists_step|eapply sub_step; eauto|eapply bnd_step; eauto].
Qed.

(** * Histories *)
Lemma uncached_right p h o : plain o ->
  right_answer (grun (Given _ p None) (h ++ [o])) o (snd (mstep (mrun (fresh P B O p) h) o)).
Proof.
  intros Q. rewrite grun_app. cbn. apply plain_right; [|easy]. apply base_run, base_fresh.
Qed.
Lemma after_assignment p0 h p w tol r o :
  Forall plain w -> Forall (gentle tol) r -> gentle tol o ->
  (match o with ReadSub _ => False | ReadBoundary _ bid => (0 < bid)%Z | _ => True end) ->
  right_answer (grun (Given _ p0 None) (h ++ SetPatches _ p :: w ++ r ++ [o])) o
    (snd (mstep (mrun (fresh P B O p0) (h ++ SetPatches _ p :: w ++ r)) o)).
Proof.
  intros Fw Fr G Q.
  replace (h ++ SetPatches _ p :: w ++ r ++ [o]) with ((h ++ SetPatches _ p :: w) ++ r ++ [o]) by (now rewrite <- app_assoc).
  replace (h ++ SetPatches _ p :: w ++ r) with ((h ++ SetPatches _ p :: w) ++ r) by (now rewrite <- app_assoc).
  rewrite grun_app, mrun_app, grun_app. 
  assert (base (grun (Given _ p0 None) (h ++ SetPatches _ p :: w)) (mrun (fresh P B O p0) (h ++ SetPatches _ p :: w))) as Hb
    by (apply base_run, base_fresh).
  assert (lists_empty (mrun (fresh P B O p0) (h ++ SetPatches _ p :: w))) as [E1 E2].
  { rewrite mrun_app. cbn [M_Patches.mrun fold_left].
    apply (plain_lists_run w (gstep (grun (Given _ p0 None) h) (SetPatches _ p))); auto.
    - apply base_step, base_run, base_fresh.
    - split; easy. }
  set (g := grun (Given _ p0 None) (h ++ SetPatches _ p :: w)) in *.
  set (m := mrun (fresh P B O p0) (h ++ SetPatches _ p :: w)) in *.
  assert (base (grun g r) (mrun m r)) as Hb2 by now apply base_run.
  pose proof (lists_right tol (grun g r) (mrun m r) o Hb2 G (lists_run tol r g m Hb Fr (conj (or_introl E1) (or_introl E2)))) as X.
  destruct o; cbn in *; try easy. now apply X.
Qed.
Lemma from_new p w tol r o : Forall plain w -> Forall (gentle tol) r -> gentle tol o ->
  right_answer (grun (Given _ p None) (w ++ r ++ [o])) o
    (snd (mstep (mrun (fresh P B O p) (w ++ r)) o)).
Proof.
  intros Fw Fr G. rewrite grun_app, grun_app, mrun_app.
  set (g := grun (Given _ p None) w). set (m := mrun (fresh P B O p) w).
  assert (base g m) as Hb by apply base_run, base_fresh.
  assert (all_empty m) as ((E1 & E2) & E3 & E4 & E5 & E6).
  { apply (plain_empty_run w (Given _ p None)); auto; [apply base_fresh|]. repeat split. }
  destruct (all_run tol r g m Hb Fr) as (L & U & K).
  - split; now left.
  - split; now left.
  - split; now left.
  - apply (all_right tol); auto. now apply base_run.
Qed.
(** * Orientations after a reset *)
Definition orient_ok (tol : Qc) (g : given_state P) (m : mp) : Prop :=
  m_orient _ _ _ m = [] \/ right_lines (gs_patches _ g) (table_of g) tol (m_orient _ _ _ m).
Lemma orient_step tol g m o : base g m -> gentle tol o -> orient_ok tol g m ->
  orient_ok tol (gstep g o) (fst (mstep m o)).
Proof.
  intros H G L. assert (orient_ok tol (gstep g o) m) as L'.
  { destruct L as [L|L]; [now left|right]. destruct (gentle_patches tol g o G) as [-> E]. eapply right_lines_edit; eauto. }
  assert (forall m', m_orient _ _ _ m' = m_orient _ _ _ m \/ m_orient _ _ _ m' = [] -> orient_ok tol (gstep g o) m') as K.
  { unfold orient_ok in *. intros m' [-> | ->]; auto. }
  destruct o as [p|t|f| | | |bid|bid|tol']; try easy.
  - apply K. cbn. unfold edit_interfaces. pose proof (get_false_base g m H) as I.
    destruct (get_interfaces _ _ _ conn_of false m) as [m' t]. cbn. apply I.
  - apply K. cbn. pose proof (get_false_base g m H) as I; destruct (get_interfaces _ _ _ conn_of false m) as [m' t]. apply I.
  - apply K. cbn. unfold py_sub_multipatch. destruct (m_py_sub _ _ _ m); now left.
  - apply K. cbn. pose proof (ids_base g m bid H) as I. unfold bids in I. destruct (boundary_patch_ids _ _ _ conn_of bid m) as [m' l].
    apply I.
  - apply K. cbn. pose proof (pybmp_base g m bid H) as I. destruct (py_boundary_multipatch _ _ _ conn_of boundary_of bid m) as [m' b].
    apply I.
  - cbn in *. subst tol'. unfold get_orientations. destruct (m_orient _ _ _ m) eqn:E; [|exact L'].
    pose proof (get_false_base g m H) as I; destruct (get_interfaces _ _ _ conn_of false m) as [m' t].
    destruct I as (I1 & -> & _ & _ & _ & I2 & _). right. cbn. destruct I1 as [-> _]. apply lines_right.
Qed.
Lemma orient_run tol ops : forall g m, base g m -> Forall (gentle tol) ops -> orient_ok tol g m ->
  orient_ok tol (grun g ops) (mrun m ops).
Proof.
  unfold M_Patches.mrun, S_Patches.grun. induction ops as [|o ops IH]; intros g m H F E; cbn [fold_left]; [easy|].
  inversion F; subst. apply IH; [now apply base_step; eauto|easy|]. now apply orient_step.
Qed.
Lemma after_reset p0 h o0 tol r : renews P o0 -> Forall (gentle tol) r ->
  right_answer (grun (Given _ p0 None) (h ++ o0 :: r ++ [ReadOrientations _ tol])) (ReadOrientations _ tol)
    (snd (mstep (mrun (fresh P B O p0) (h ++ o0 :: r)) (ReadOrientations _ tol))).
Proof.
  intros N Fr.
  replace (h ++ o0 :: r ++ [ReadOrientations _ tol]) with ((h ++ [o0]) ++ r ++ [ReadOrientations _ tol]) by (now rewrite <- app_assoc).
  replace (h ++ o0 :: r) with ((h ++ [o0]) ++ r) by (now rewrite <- app_assoc).
  rewrite grun_app, mrun_app, grun_app.
  set (g := grun (Given _ p0 None) (h ++ [o0])). set (m := mrun (fresh P B O p0) (h ++ [o0])).
  assert (base g m) as Hb by (apply base_run, base_fresh).
  assert (m_orient _ _ _ m = []) as E.
  { unfold m. rewrite mrun_app. cbn [M_Patches.mrun fold_left]. destruct o0; try easy.
    cbn. unfold get_interfaces. now destruct (m_conn _ _ _ _). }
  assert (base (grun g r) (mrun m r)) as Hb2 by now apply base_run.
  pose proof (orient_run tol r g m Hb Fr (or_introl E)) as L.
  set (g2 := grun g r) in *. set (m2 := mrun m r) in *. clearbody g2 m2.
  cbn. unfold get_orientations. destruct (m_orient _ _ _ m2) as [|e o] eqn:E2.
  - pose proof (get_false_base g2 m2 Hb2) as I; destruct (get_interfaces _ _ _ conn_of false m2) as [m' t].
    cbn. eexists. split; [reflexivity|]. destruct I as ([-> _] & -> & _). apply lines_right.
  - cbn. eexists. split; [reflexivity|]. destruct L as [L|L]; [congruence|]. now rewrite E2 in L.
Qed.
End Cache.
