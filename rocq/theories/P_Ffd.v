(** Proofs about free form deformation. *)
From Coq Require Import List Arith ZArith Lia Bool QArith Qcanon.
From Verif Require Import Base BaseQc S_Grid S_Spline P_Spline S_Value P_Value M_Core S_Core P_Core M_Knots S_Knots P_Knots
  M_Create P_Create P_Shapes W_Create P_Fit M_Ffd S_Ffd.
Import ListNotations.
Local Open Scope list_scope.
Local Open Scope nat_scope.

Lemma qmin_list_spec l : l <> [] -> In (qmin_list l) l /\ forall x, In x l -> (qmin_list l <= x)%Qc.
Proof.
  intros H. unfold qmin_list. destruct l as [|a l]; [easy|]. clear H. cbn [hd].
  assert (forall k, (fold_right (fun x m => if qleb x m then x else m) a k = a \/ In (fold_right (fun x m => if qleb x m then x else m) a k) k) /\
    (fold_right (fun x m => if qleb x m then x else m) a k <= a)%Qc /\
    forall x, In x k -> (fold_right (fun x m => if qleb x m then x else m) a k <= x)%Qc) as K.
  { induction k as [|y k (I1 & I2 & I3)]; cbn [fold_right].
    - split; [now left|]. split; [apply Qcle_refl|easy].
    - set (m := fold_right _ a k) in *. destruct (qleb_spec y m) as [L|L].
      + split; [right; now left|]. split; [eauto using Qcle_trans|]. intros x [->|Hx]; [apply Qcle_refl|]. eauto using Qcle_trans.
      + split; [destruct I1; [now left|right; now right]|]. split; auto. intros x [->|Hx]; auto.
        now apply Qclt_le_weak, Qcnot_le_lt. }
  destruct (K (a :: l)) as (K1 & _ & K2). split; auto. destruct K1 as [K1|K1]; auto. rewrite K1. now left.
Qed.
Lemma qmax_list_spec l : l <> [] -> In (qmax_list l) l /\ forall x, In x l -> (x <= qmax_list l)%Qc.
Proof.
  intros H. unfold qmax_list. destruct l as [|a l]; [easy|]. clear H. cbn [hd].
  assert (forall k, (fold_right (fun x m => if qleb m x then x else m) a k = a \/ In (fold_right (fun x m => if qleb m x then x else m) a k) k) /\
    (a <= fold_right (fun x m => if qleb m x then x else m) a k)%Qc /\
    forall x, In x k -> (x <= fold_right (fun x m => if qleb m x then x else m) a k)%Qc) as K.
  { induction k as [|y k (I1 & I2 & I3)]; cbn [fold_right].
    - split; [now left|]. split; [apply Qcle_refl|easy].
    - set (m := fold_right _ a k) in *. destruct (qleb_spec m y) as [L|L].
      + split; [right; now left|]. split; [eauto using Qcle_trans|]. intros x [->|Hx]; [apply Qcle_refl|]. eauto using Qcle_trans.
      + split; [destruct I1; [now left|right; now right]|]. split; auto. intros x [->|Hx]; auto.
        now apply Qclt_le_weak, Qcnot_le_lt. }
  destruct (K (a :: l)) as (K1 & _ & K2). split; auto. destruct K1 as [K1|K1]; auto. rewrite K1. now left.
Qed.

Lemma bounds_spec m lo hi : bounds m = Some (lo, hi) -> length lo = v_dim m /\ length hi = v_dim m /\ v_vertices m <> [] /\
  box_of (v_vertices m) (fun d => nth d lo 0%Qc) (fun d => nth d hi 0%Qc) (v_dim m).
Proof.
  unfold bounds. destruct (v_vertices m) as [|v0 vs] eqn:E; [discriminate|]. intros [= <- <-].
  rewrite !map_length, seq_length. split; [auto|]. split; [auto|]. split; [discriminate|].
  intros d Hd. set (l := map (fun v => nth d v 0%Qc) (v0 :: vs)).
  rewrite !P_Fit.at_map_seq by lia. cbn [Nat.add].
  match goal with |- context [qmin_list ?x] => change x with l end. match goal with |- context [qmax_list ?x] => change x with l end.
  destruct (qmin_list_spec l) as [A1 A2]; [discriminate|]. destruct (qmax_list_spec l) as [B1 B2]; [discriminate|].
  split; [|split].
  - apply in_map_iff in A1 as (v & Ev & Hv). eauto.
  - apply in_map_iff in B1 as (v & Ev & Hv). eauto.
  - intros v Hv. assert (In (nth d v 0%Qc) l) by (apply in_map_iff; eauto). auto.
Qed.

Lemma scaled_nth padding lo hi v d : d < length v -> length lo = length v -> length hi = length v ->
  nth d (scaled padding lo hi v) 0%Qc = ((nth d v 0 - (nth d lo 0 - padding)) / (nth d hi 0 - nth d lo 0 + inj 2 * padding))%Qc.
Proof.
  intros Hd L1 L2. unfold scaled.
  set (f := fun x : Qc * (Qc * Qc) => let '(x, (l, h)) := x in ((x - (l - padding)) * (1 / (h + padding - (l - padding))))%Qc).
  rewrite nth_indep with (d' := f (0, (0, 0))%Qc) by (rewrite map_length, !combine_length; lia).
  rewrite (map_nth f). rewrite combine_nth by (rewrite combine_length; lia). rewrite combine_nth by lia. unfold f.
  assert (inj 2 = 1 + 1)%Qc as -> by (apply Qc_is_canon; reflexivity). unfold Qcdiv. rewrite Qcmult_1_l. f_equal. f_equal. ring.
Qed.
Lemma scaled_length padding lo hi v : length lo = length v -> length hi = length v -> length (scaled padding lo hi v) = length v.
Proof. intros. unfold scaled. rewrite map_length, !combine_length. lia. Qed.

Lemma scaled_fits padding m lo hi : (0 < padding)%Qc -> mesh_ok m -> bounds m = Some (lo, hi) ->
  fits_cube padding m (map (scaled padding lo hi) (v_vertices m)).
Proof.
  intros Hp Hm B. destruct (bounds_spec m lo hi B) as (L1 & L2 & Hne & Bx). split; [apply map_length|].
  exists (fun d => nth d lo 0%Qc), (fun d => nth d hi 0%Qc). split; auto. rewrite map_length. intros i Hi.
  set (v := nth i (v_vertices m) []). assert (In v (v_vertices m)) as Hv by now apply nth_In.
  assert (length v = v_dim m) as Lv. { unfold mesh_ok in Hm. rewrite Forall_forall in Hm. auto. }
  assert (nth i (map (scaled padding lo hi) (v_vertices m)) [] = scaled padding lo hi v) as ->.
  { rewrite nth_indep with (d' := scaled padding lo hi []) by (rewrite map_length; lia). now rewrite map_nth. }
  rewrite scaled_length by lia. split; auto. intros d Hd. cbv zeta. rewrite scaled_nth by lia.
  destruct (Bx d Hd) as (_ & _ & K). destruct (K v Hv) as [K1 K2]. set (x := nth d v 0%Qc) in *. set (l := nth d lo 0%Qc) in *. set (h := nth d hi 0%Qc) in *.
  clearbody x l h. clear - Hp K1 K2. assert (inj 2 = 1 + 1)%Qc as -> by (apply Qc_is_canon; reflexivity).
  assert (0 < h - l + (1 + 1) * padding)%Qc as P by qlra.
  pose proof (Qc_inv_pos _ P) as Pi. assert (h - l + (1 + 1) * padding <> 0)%Qc as Nz by (intro Z; rewrite Z in P; discriminate P).
  split; [|split].
  - unfold Qcdiv. apply Qc_mul_pos; auto. qlra.
  - apply Qclt_le_trans with ((h - l + (1 + 1) * padding) * / (h - l + (1 + 1) * padding))%Qc.
    + unfold Qcdiv. apply Qcmult_lt_compat_r; auto. qlra.
    + replace ((h - l + (1 + 1) * padding) * / (h - l + (1 + 1) * padding))%Qc with 1%Qc by (field; auto). apply Qcle_refl.
  - field. auto.
Qed.

(** * Invariant *)
Definition unit_axis (a : paxis) : Prop :=
  match a with BezierAxis _ => True | KnotAxis p kv => ax_wf a /\ kn kv 0 = 0%Qc /\ kn kv (length kv - 1) = 1%Qc end.
Definition good (tol : Qc) (limit : nat) (st : ffd) : Prop :=
  (tol <= d_padding st)%Qc /\
  match d_mesh st with
  | None => d_q st = None
  | Some m => mesh_ok m /\ v_vertices m <> [] /\ 1 <= v_dim m <= limit /\ exists q, d_q st = Some q /\ fits_cube (d_padding st) m q
  end /\
  match d_spline st with
  | None => True
  | Some s => Forall unit_axis (sp_axes s) /\ 1 <= length (sp_axes s) <= limit /\ match d_mesh st with Some m => length (sp_axes s) = v_dim m | None => True end
  end.

Lemma normalized_unit s : sp_wf s -> Forall unit_axis (sp_axes (normalize_knot_vectors s)).
Proof.
  intros [F _]. cbn [normalize_knot_vectors sp_axes]. apply Forall_map. eapply Forall_impl; [|exact F]. intros [p|p kv] W; [exact I|].
  destruct (normalize_axis_spec p kv W) as (kv' & E & W' & L & K0 & K1 & _). rewrite E. cbn [unit_axis]. rewrite L. auto.
Qed.
Lemma normalized_dim s : length (sp_axes (normalize_knot_vectors s)) = length (sp_axes s).
Proof. apply map_length. Qed.

(** The default spline. *)
Lemma unit_pairs n : combine (firstn n (repeat 0%Qc n)) (firstn n (repeat 1%Qc n)) = repeat (0, 1)%Qc n.
Proof. rewrite !firstn_all2 by (rewrite repeat_length; lia). induction n; cbn; congruence. Qed.
Lemma default_ok limit n lo hi : length lo = n -> length hi = n ->
  match from_bounds limit (repeat 0%Qc n) (repeat 1%Qc n) lo hi with
  | None => ~ 1 <= n <= limit
  | Some s => 1 <= n <= limit /\ sp_axes s = repeat (segment (0, 1)%Qc) n /\ dim_of (sp_cps s) = n /\
      normalize_knot_vectors s = s /\
      forall us d, length us = n -> (forall d, d < n -> (0 <= nth d us 0)%Qc /\ (nth d us 0 <= 1)%Qc) -> d < n ->
        sp_value s us d = (nth d lo 0 + nth d us 0 * (nth d hi 0 - nth d lo 0))%Qc
  end.
Proof.
  intros L1 L2. assert (length hi = length lo) as L by congruence.
  destruct (box limit (row_sub hi lo)) as [b|] eqn:E.
  - assert (1 <= n <= limit) as Hn. { rewrite <- L1, <- (size_length lo hi L). apply C47_box_holds. eauto. }
    assert (forall d, d < length lo -> (qc (-1) 1 <= nth d (repeat 0 n) 0)%Qc /\ (nth d (repeat 0 n) 0 < nth d (repeat 1 n) 0)%Qc) as Hb.
    { intros d Hd. rewrite !repeat_nth by lia. split; [unfold Qcle, Qle; vm_compute; discriminate|reflexivity]. }
    destruct (from_bounds_eq limit (repeat 0%Qc n) (repeat 1%Qc n) lo hi L b E) as [E1 _]; try (rewrite repeat_length; lia).
    { rewrite L1, unit_pairs. apply Forall_forall. intros ab H. apply repeat_spec in H as ->. split; [|discriminate].
      unfold Qcle, Qle; vm_compute; discriminate. }
    destruct (C63_bounds_partial_holds limit (repeat 0%Qc n) (repeat 1%Qc n) lo hi L ltac:(lia)) as (s & E2 & D & V);
      try (rewrite repeat_length; lia); auto.
    assert (s = bounds_spline (repeat 0%Qc n) (repeat 1%Qc n) lo (sp_cps b)) as Es by congruence.
    rewrite E1, <- Es.
    assert (sp_axes s = repeat (segment (0, 1)%Qc) n) as Ea.
    { rewrite Es. cbn [bounds_spline sp_axes]. rewrite L1, unit_pairs. apply map_repeat. }
    split; auto. split; auto. split; [|split].
    + rewrite Es. cbn [bounds_spline sp_cps]. destruct (C63_box_holds limit (row_sub hi lo) b E) as (Eb & F & _).
      pose proof (box_spec limit (row_sub hi lo)) as B. rewrite E in B. destruct B as (_ & (_ & (_ & Lc & _) & _) & _).
      unfold sp_res in Lc. rewrite Eb, map_repeat in Lc.
      destruct (sp_cps b) as [|p0 cps]; [exfalso; clear - Lc; cbn in Lc; revert Lc; generalize (length (row_sub hi lo)); intros k; induction k; cbn in *; lia|].
      unfold dim_of. cbn [map hd]. rewrite row_add_length. inversion F as [|? ? F1 _]; subst. rewrite F1, (size_length lo hi L). lia.
    + rewrite Es. unfold normalize_knot_vectors, bounds_spline. cbn [sp_axes sp_cps sp_weights]. f_equal. rewrite L1, unit_pairs, !map_repeat.
      unfold segment, normalize_axis, scale01. cbn [fst snd map length].
      repeat f_equal; apply Qc_is_canon; vm_compute; reflexivity.
    + intros us d Lu Hu Hd. rewrite V.
      * rewrite !repeat_nth by lia. field. intro Z; discriminate Z.
      * apply D. split; [lia|]. intros d' Hd'. rewrite !repeat_nth by lia. apply Hu. lia.
      * lia.
  - unfold from_bounds. rewrite E. intros H. assert (exists s, box limit (row_sub hi lo) = Some s) as (s & E'); [|congruence].
    apply C47_box_holds. rewrite (size_length lo hi L). lia.
Qed.
Lemma segment_unit : unit_axis (segment (0, 1)%Qc).
Proof.
  split; [|split; reflexivity]. split; [reflexivity|]. split; [|reflexivity]. intros i j Hij Hj. cbn [fst snd length] in *.
  do 4 (destruct j as [|j]; [do 4 (destruct i as [|i]; [try lia; cbn [nth]; unfold Qcle, Qle; vm_compute; discriminate|]); lia|]). lia.
Qed.

(** * Steps *)
Lemma set_spline_good tol (limit : nat) st s : op_ok limit (SetSpline s) -> good tol limit st -> good tol limit (state_of (set_spline st s)).
Proof.
  intros Ok (G1 & G2 & G3). destruct s as [s|]; cbn [set_spline].
  - cbn in Ok. destruct Ok as [Ok Hl]. pose proof (normalized_unit s Ok) as U. unfold good, set_spline. destruct (d_mesh st) as [m|] eqn:Em.
    + unfold matches. destruct (Nat.eqb_spec (length (sp_axes s)) (v_dim m)) as [E|E]; cbn [state_of d_mesh d_spline d_q d_padding].
      * rewrite normalized_dim. auto 6.
      * rewrite Em. auto.
    + cbn [state_of d_mesh d_spline d_q d_padding]. rewrite normalized_dim. auto 6.
  - cbn [state_of]. unfold good. cbn [d_mesh d_spline d_q d_padding]. auto.
Qed.

Lemma set_mesh_spec tol limit st m : (0 < tol)%Qc -> mesh_ok m -> good tol limit st ->
  let kept := exists s, d_spline st = Some s /\ length (sp_axes s) = v_dim m in
  good tol limit (state_of (set_mesh limit st (Some m))) /\ d_padding (state_of (set_mesh limit st (Some m))) = d_padding st /\
  ((exists st', set_mesh limit st (Some m) = Done st') <->
     v_vertices m <> [] /\ (kept \/ (1 <= v_dim m <= limit /\ match d_mesh st with Some m0 => v_dim m0 = v_dim m | None => True end))) /\
  (forall st', set_mesh limit st (Some m) = Done st' -> d_mesh st' = Some m /\
     (kept -> d_spline st' = d_spline st) /\
     (~ kept -> exists lo hi, bounds m = Some (lo, hi) /\ d_spline st' = from_bounds limit (repeat 0%Qc (v_dim m)) (repeat 1%Qc (v_dim m)) lo hi) /\
     exists s, d_spline st' = Some s).
Proof.
  intros Ht Hm G. pose proof G as (G1 & G2 & G3). cbv zeta. unfold set_mesh.
  set (st1 := match d_spline st with Some s => _ | None => st end).
  assert (d_mesh st1 = d_mesh st /\ d_q st1 = d_q st /\ d_padding st1 = d_padding st) as (M1 & Q1 & P1).
  { unfold st1. destruct (d_spline st) as [s|]; auto. destruct (matches s m); auto. }
  assert (match d_spline st1 with
          | Some s => d_spline st = Some s /\ length (sp_axes s) = v_dim m
          | None => ~ exists s, d_spline st = Some s /\ length (sp_axes s) = v_dim m end) as S1.
  { unfold st1. destruct (d_spline st) as [s|] eqn:Es.
    - unfold matches. destruct (Nat.eqb_spec (length (sp_axes s)) (v_dim m)) as [E|E]; [rewrite Es; auto|]. cbn.
      intros (s' & [= <-] & H). contradiction.
    - rewrite Es. intros (s & H & _). discriminate H. }
  assert (good tol limit st1) as Gd1.
  { unfold good. rewrite M1, Q1, P1. split; auto. split; auto. destruct (d_spline st1) as [s|]; auto. destruct S1 as [S1 _]. now rewrite S1 in G3. }
  clearbody st1.
  destruct (bounds m) as [[lo hi]|] eqn:B.
  - destruct (bounds_spec m lo hi B) as (L1 & L2 & Hne & _).
    assert (fits_cube (d_padding st) m (map (scaled (d_padding st) lo hi) (v_vertices m))) as Fq.
    { apply scaled_fits; auto. now apply Qclt_le_trans with tol. }
    destruct (d_spline st1) as [s|] eqn:Es1.
    + destruct S1 as [S1 S2]. cbn [state_of]. rewrite !Es1, P1. unfold good. cbn [d_mesh d_spline d_q d_padding].
      rewrite S1 in G3. split; [|split; [auto|split]].
      * split; auto. destruct G3 as (U3 & H3 & _). split; [split; [auto|split; [auto|split; [lia|eauto]]]|]. auto 6.
      * split; [|eauto]. intros _. split; auto. left. eauto.
      * intros st' [= <-]. cbn. split; auto. split; [now rewrite S1|]. split; [|eauto]. intros H. exfalso. apply H. eauto.
    + pose proof (default_ok limit (v_dim m) lo hi L1 L2) as Df.
      destruct (from_bounds limit _ _ lo hi) as [s|] eqn:Ef.
      * destruct Df as (Hl & Ea & _ & En & _). assert (length (sp_axes s) = v_dim m) as La by (rewrite Ea; apply repeat_length).
        assert (Forall unit_axis (sp_axes s)) as U.
        { rewrite Ea. apply Forall_forall. intros a H. apply repeat_spec in H as ->. apply segment_unit. }
        unfold set_spline. rewrite M1, En. unfold matches.
        destruct (d_mesh st) as [m0|] eqn:Em.
        -- rewrite La. destruct (Nat.eqb_spec (v_dim m) (v_dim m0)) as [E|E].
           ++ cbn [state_of]. unfold good. cbn [d_mesh d_spline d_q d_padding]. rewrite P1. split; [|split; [auto|split]].
              ** split; auto. split; [split; [auto|split; [auto|split; [lia|eauto]]]|]. rewrite La. auto 6.
              ** split; [|eauto]. intros _. split; auto.
              ** intros st' [= <-]. cbn. split; auto. split; [intros H; contradiction|]. split; [intros _; exists lo, hi; rewrite Ef; auto|eauto].
           ++ cbn [state_of]. split; auto. split; auto. split.
              ** split; [intros (st' & H); discriminate H|]. intros [_ [H|[_ H]]]; [contradiction|congruence].
              ** intros st' H. discriminate H.
        -- cbn [state_of]. unfold good. cbn [d_mesh d_spline d_q d_padding]. rewrite P1. split; [|split; [auto|split]].
           ++ split; auto. split; [split; [auto|split; [auto|split; [lia|eauto]]]|]. rewrite La. auto 6.
           ++ split; [|eauto]. intros _. split; auto.
           ++ intros st' [= <-]. cbn. split; auto. split; [intros H; contradiction|]. split; [intros _; exists lo, hi; rewrite Ef; auto|eauto].
      * cbn [state_of]. split; auto. split; auto. split.
        -- split; [intros (st' & H); discriminate H|]. intros [_ [H|[H _]]]; contradiction.
        -- intros st' H. discriminate H.
  - assert (v_vertices m = []) as Hv. { unfold bounds in B. destruct (v_vertices m); [auto|discriminate]. }
    cbn [state_of]. split; auto. split; auto. split.
    + split; [intros (st' & H); discriminate H|]. intros [H _]. contradiction.
    + intros st' H. discriminate H.
Qed.
Lemma set_mesh_good tol limit st m : (0 < tol)%Qc -> op_ok limit (SetMesh m) -> good tol limit st -> good tol limit (state_of (set_mesh limit st m)).
Proof.
  intros Ht Ok G. destruct m as [m|]; [now apply set_mesh_spec|]. destruct G as (G1 & G2 & G3). unfold good, set_mesh. cbn.
  split; auto. split; auto. destruct (d_spline st) as [s|]; auto. destruct G3 as (U3 & H3 & _). auto.
Qed.
Lemma set_padding_spec tol limit st p : (0 < tol)%Qc -> good tol limit st ->
  good tol limit (state_of (set_padding tol limit st p)) /\
  ((exists st', set_padding tol limit st p = Done st') <-> (tol <= p)%Qc) /\
  (forall st', set_padding tol limit st p = Done st' -> d_padding st' = p /\ d_mesh st' = d_mesh st /\ (d_spline st <> None -> d_spline st' = d_spline st)) /\
  (forall st', set_padding tol limit st p = Raised st' -> st' = st).
Proof.
  intros Ht G. unfold set_padding. destruct (qltb_spec p 0) as [H0|H0].
  { cbn [state_of]. split; auto. split; [|split; [intros st' H; discriminate H|now intros st' [= <-]]].
    split; [intros (st' & H); discriminate H|]. intros H. exfalso. clear G. qlra. }
  destruct (qltb_spec p tol) as [H1|H1].
  { cbn [state_of]. split; auto. split; [|split; [intros st' H; discriminate H|now intros st' [= <-]]].
    split; [intros (st' & H); discriminate H|]. intros H. exfalso. clear G. qlra. }
  apply Qcnot_lt_le in H1. pose proof G as (G1 & G2 & G3). cbn [d_q d_mesh].
  destruct (d_q st) as [q|] eqn:Eq.
  - destruct (d_mesh st) as [m|] eqn:Em; [|discriminate G2]. destruct G2 as (Ok & Hne & Hl & q' & E' & Fq).
    set (st1 := Ffd (Some m) (d_spline st) (Some q) p).
    assert (exists q1, good tol limit (Ffd (Some m) (d_spline st) (Some q1) p)) as (q1 & Gd).
    { destruct (bounds m) as [[lo hi]|] eqn:B; [|unfold bounds in B; destruct (v_vertices m); [contradiction|discriminate]].
      exists (map (scaled p lo hi) (v_vertices m)). unfold good. cbn [d_mesh d_spline d_q d_padding]. split; auto. split; auto.
      split; auto. split; auto. split; auto. eexists. split; [reflexivity|]. apply scaled_fits; auto. now apply Qclt_le_trans with tol. }
    assert (set_mesh limit st1 (Some m) = set_mesh limit (Ffd (Some m) (d_spline st) (Some q1) p) (Some m) \/
            (exists a b, set_mesh limit st1 (Some m) = Raised a /\ set_mesh limit (Ffd (Some m) (d_spline st) (Some q1) p) (Some m) = Raised b)) as Same.
    { unfold set_mesh, st1. cbn [d_mesh d_spline d_q d_padding].
      destruct (d_spline st) as [s|].
      - destruct (matches s m); cbn [d_mesh d_spline d_q d_padding]; destruct (bounds m) as [[lo hi]|]; eauto; [].
        destruct (from_bounds _ _ _ _ _) as [s'|]; eauto. cbn [set_spline d_mesh d_spline d_q d_padding]. destruct (matches s' m); eauto.
      - destruct (bounds m) as [[lo hi]|]; eauto; []. cbn [d_mesh d_spline d_q d_padding].
        destruct (from_bounds _ _ _ _ _) as [s'|]; eauto. cbn [set_spline d_mesh d_spline d_q d_padding]. destruct (matches s' m); eauto. }
    destruct (set_mesh_spec tol limit (Ffd (Some m) (d_spline st) (Some q1) p) m Ht Ok Gd) as (Gm & Pm & Iff & Dn).
    assert (exists st', set_mesh limit (Ffd (Some m) (d_spline st) (Some q1) p) (Some m) = Done st') as (st' & E).
    { apply Iff. split; [auto|]. right. cbn. auto. }
    destruct Same as [Same|(a & b & _ & Same)]; [|rewrite E in Same; discriminate Same].
    rewrite Same, E. rewrite E in Gm, Pm. cbn [state_of] in *. destruct (Dn st' E) as (Em' & Kp & _). split; auto. split; [|split].
    + split; eauto.
    + intros st2 [= <-]. split; auto. split; auto. intros Hs. apply Kp. cbn. destruct (d_spline st) as [s|]; [|contradiction]. exists s. split; auto. apply G3.
    + intros st2 H. discriminate H.
  - cbn [state_of]. split; [|split; [|split]].
    + unfold good. cbn [d_mesh d_spline d_q d_padding]. split; auto. split; auto. destruct (d_mesh st) as [m|]; auto.
      destruct G2 as (_ & _ & _ & q & H & _). discriminate H.
    + split; eauto.
    + intros st' [= <-]. auto.
    + intros st' H. discriminate H.
Qed.
Lemma step_good tol limit st o : (0 < tol)%Qc -> op_ok limit o -> good tol limit st -> good tol limit (state_of (step tol limit st o)).
Proof.
  intros Ht Ok G. destruct o as [m|s|p]; cbn [step].
  - now apply set_mesh_good.
  - now apply set_spline_good.
  - now apply set_padding_spec.
Qed.
Lemma run_good tol limit ops : forall st, (0 < tol)%Qc -> Forall (op_ok limit) ops -> good tol limit st -> good tol limit (run tol limit st ops).
Proof.
  induction ops as [|o ops IH]; intros st Ht F G; [exact G|]. inversion F; subst. cbn [run fold_left]. apply IH; auto. now apply step_good.
Qed.
Lemma new_good tol limit m s p st : (0 < tol)%Qc -> op_ok limit (SetMesh m) -> op_ok limit (SetSpline s) ->
  new_ffd tol limit m s p = Some st -> good tol limit st.
Proof.
  intros Ht O1 O2. unfold new_ffd. set (p' := match p with Some q => q | None => tol end). unfold set_padding.
  destruct (qltb_spec p' 0); [discriminate|]. destruct (qltb_spec p' tol) as [|H1]; [discriminate|]. apply Qcnot_lt_le in H1. cbn [d_q d_mesh d_spline].
  assert (good tol limit (Ffd None None None p')) as G by (unfold good; cbn; auto).
  assert (good tol limit (state_of (match m with Some _ => set_mesh limit (Ffd None None None p') m | None => Done (Ffd None None None p') end))) as G1.
  { destruct m as [m|]; [now apply set_mesh_good|exact G]. }
  destruct (match m with Some _ => _ | None => _ end) as [st1|st1]; [|discriminate]. cbn [state_of] in G1.
  assert (good tol limit (state_of (match s with Some _ => set_spline st1 s | None => Done st1 end))) as G2.
  { destruct s as [s|]; [now apply set_spline_good|exact G1]. }
  destruct (match s with Some _ => _ | None => _ end) as [st2|st2]; [|discriminate]. cbn [state_of] in G2. now intros [= <-].
Qed.
Lemma reachable_good tol limit st : (0 < tol)%Qc -> reachable tol limit st -> good tol limit st.
Proof.
  intros Ht (m & s & p & st0 & ops & O1 & O2 & E & F & ->). apply run_good; auto. eapply new_good; eauto.
Qed.

Lemma normalized_whole a : ax_wf a -> whole_range a -> whole_range (normalize_axis a).
Proof.
  intros W H. destruct a as [p|p kv]; [exact H|]. destruct (normalize_axis_spec p kv W) as (kv' & E & _ & L & _ & _ & c & _ & K).
  pose proof (normalize_n (KnotAxis p kv)) as N. rewrite E in *. cbn [whole_range] in *. rewrite N, L. destruct H as [H1 H2].
  pose proof (K 0 p) as K1. pose proof (K (ax_n (KnotAxis p kv)) (length kv - 1)) as K2. rewrite H1 in K1. rewrite H2 in K2.
  set (a := kn kv' p) in *. set (b := kn kv' 0) in *. set (e := kn kv' (ax_n _)) in *. set (g := kn kv' (length kv - 1)) in *. clearbody a b e g.
  clear - K1 K2. split.
  - replace a with (a - b + b)%Qc by ring. rewrite K1. ring.
  - replace e with (g - (g - e))%Qc by ring. rewrite K2. ring.
Qed.
Lemma unit_domain a u : unit_axis a -> whole_range a -> (0 <= u)%Qc -> (u <= 1)%Qc -> ax_domain a u.
Proof.
  intros U W H0 H1. destruct a as [p|p kv]; [now split|]. destruct U as (_ & K0 & K1), W as (W0 & W1). unfold ax_domain, ax_lower, ax_upper.
  cbn [ax_n] in *. rewrite W0, W1, K0, K1. auto.
Qed.
Lemma cube_domain tol limit st m s q : good tol limit st -> d_mesh st = Some m -> d_spline st = Some s -> d_q st = Some q ->
  Forall whole_range (sp_axes s) -> Forall (sp_domain s) q.
Proof.
  intros (_ & G2 & G3) Em Es Eq W. rewrite Em in *. rewrite Es in G3. destruct G2 as (_ & _ & _ & q' & E' & L & lo & hi & _ & K).
  rewrite Eq in E'. injection E' as <-. destruct G3 as (U & _ & D). apply Forall_forall. intros u Hu.
  apply (In_nth _ _ []) in Hu as (i & Hi & <-). destruct (K i Hi) as [Lu Ku]. unfold sp_domain.
  assert (forall (axes : list paxis) (u : list Qc), length axes = length u -> Forall unit_axis axes -> Forall whole_range axes ->
    (forall d, d < length u -> (0 <= nth d u 0)%Qc /\ (nth d u 0 <= 1)%Qc) -> Forall2 ax_domain axes u) as F.
  { clear. induction axes as [|a axes IH]; intros [|x u] L U W H; try discriminate L; constructor.
    - inversion U; inversion W; subst. apply unit_domain; auto; apply (H 0); cbn; lia.
    - inversion U; inversion W; subst. apply IH; auto. intros d Hd. apply (H (S d)). cbn; lia. }
  apply F; auto; [congruence|]. intros d Hd. rewrite Lu in Hd. destruct (Ku d Hd) as (A & B & _). split; now apply Qclt_le_weak.
Qed.

Lemma same_coord (vs : list (list Qc)) lo hi lo' hi' n : box_of vs lo hi n -> box_of vs lo' hi' n ->
  forall d, d < n -> lo d = lo' d /\ hi d = hi' d.
Proof.
  intros B B' d Hd. destruct (B d Hd) as ((v1 & I1 & E1) & (v2 & I2 & E2) & K), (B' d Hd) as ((w1 & J1 & F1) & (w2 & J2 & F2) & K').
  pose proof (K w1 J1). pose proof (K w2 J2). pose proof (K' v1 I1). pose proof (K' v2 I2).
  rewrite E1, E2, F1, F2 in *. split; apply Qcle_antisym; intuition.
Qed.
Lemma off_by v lo hi p x : (0 < p)%Qc -> (lo <= v)%Qc -> (v <= hi)%Qc ->
  v = (lo - p + x * (hi - lo + inj 2 * p))%Qc -> (qabs (lo + x * (hi - lo) - v) <= p)%Qc.
Proof.
  intros Hp H1 H2. assert (inj 2 = 1 + 1)%Qc as -> by (apply Qc_is_canon; reflexivity). intros E.
  assert (0 < hi - lo + (1 + 1) * p)%Qc as P by qlra. pose proof (Qc_inv_pos _ P) as Pi.
  assert (hi - lo + (1 + 1) * p <> 0)%Qc as Nz by (intro Z; rewrite Z in P; discriminate P).
  assert (x = (v - lo + p) * / (hi - lo + (1 + 1) * p))%Qc as Ex by (rewrite E; field; auto).
  assert (0 <= x)%Qc as X0. { rewrite Ex. apply Qc_mul_nonneg; [qlra|now apply Qclt_le_weak]. }
  assert (x <= 1)%Qc as X1.
  { rewrite Ex. apply Qcle_trans with ((hi - lo + (1 + 1) * p) * / (hi - lo + (1 + 1) * p))%Qc.
    - apply Qcmult_le_compat_r; [qlra|now apply Qclt_le_weak].
    - rewrite Qcmult_inv_r by auto. apply Qcle_refl. }
  replace (lo + x * (hi - lo) - v)%Qc with (p * (1 - (1 + 1) * x))%Qc by (rewrite E; ring).
  clear - Hp X0 X1. unfold qabs. destruct (Qclt_le_dec _ _); [replace (- (p * (1 - (1 + 1) * x)))%Qc with (p * ((1 + 1) * x - 1))%Qc by ring|];
    pose proof (Qc_mul_nonneg p x); pose proof (Qc_mul_nonneg p (1 - x)); qnra.
Qed.
Definition default_of (limit : nat) (m : mesh) (st : ffd) : Prop :=
  d_mesh st = Some m /\ exists lo hi, bounds m = Some (lo, hi) /\ d_spline st <> None /\
    d_spline st = from_bounds limit (repeat 0%Qc (v_dim m)) (repeat 1%Qc (v_dim m)) lo hi.
Lemma padding_default tol limit m ps : forall st, (0 < tol)%Qc -> good tol limit st -> default_of limit m st ->
  let st' := run tol limit st (map SetPadding ps) in good tol limit st' /\ default_of limit m st'.
Proof.
  induction ps as [|p ps IH]; intros st Ht G D; [now split|]. cbn [map run fold_left]. apply IH; auto.
  - now apply (step_good tol limit st (SetPadding p)).
  - cbn [step]. destruct (set_padding_spec tol limit st p Ht G) as (_ & _ & Dn & Ra). destruct (set_padding tol limit st p) as [st'|st'] eqn:E.
    + destruct (Dn st' eq_refl) as (_ & Em & Es). cbn [state_of]. destruct D as (D1 & lo & hi & B & Ne & Ds).
      split; [congruence|]. exists lo, hi. rewrite (Es Ne). auto.
    + cbn [state_of]. now rewrite (Ra st' eq_refl).
Qed.
Lemma default_within tol limit m st : (0 < tol)%Qc -> good tol limit st -> default_of limit m st ->
  exists m', get_mesh st = Some m' /\ within (d_padding st) m m'.
Proof.
  intros Ht (G1 & G2 & _) (Em & lo & hi & B & Ne & Ds). rewrite Em in G2. destruct G2 as (Ok & Hne & Hl & q & Eq & Lq & lo' & hi' & Bx' & K).
  destruct (bounds_spec m lo hi B) as (L1 & L2 & _ & Bx). pose proof (default_ok limit (v_dim m) lo hi L1 L2) as Df.
  unfold get_mesh. rewrite Em, Eq, Ds. rewrite Ds in Ne. destruct (from_bounds limit _ _ lo hi) as [s|]; [|contradiction].
  destruct Df as (_ & Ea & Dm & _ & V). eexists. split; [reflexivity|]. unfold within. cbn [v_dim v_elements v_vertices]. rewrite Dm.
  split; auto. split; auto. split; [now rewrite map_length|]. intros i d Hi Hd.
  rewrite <- Lq in Hi. destruct (K i Hi) as [Lu Ku].
  rewrite (nth_indep _ [] (map (sp_value s []) (seq 0 (v_dim m)))) by (rewrite map_length; lia).
  rewrite (map_nth (fun u => map (sp_value s u) (seq 0 (v_dim m)))). rewrite P_Fit.at_map_seq by lia. cbn [Nat.add].
  rewrite V; auto.
  - destruct (same_coord _ _ _ _ _ _ Bx Bx' d Hd) as [A1 A2]. destruct (Ku d Hd) as (X0 & X1 & Ex). rewrite <- A1, <- A2 in Ex.
    apply off_by; auto; [now apply Qclt_le_trans with tol| |]; destruct (Bx d Hd) as (_ & _ & In); apply In; apply nth_In; lia.
  - intros d' Hd'. destruct (Ku d' Hd') as (X0 & X1 & _). split; now apply Qclt_le_weak.
Qed.
