(** Proofs for extracted parts of splines: intervals and slices. *)
From Coq Require Import List Arith ZArith Bool QArith Qcanon Lia Sorted.
From Verif Require Import Base BaseRadix BaseQc S_Grid P_Grid S_Spline S_Value P_Spline P_Basis P_Value M_Numpy M_Grid M_Core M_Extract P_Extract P_Pieces M_Bezier S_Bezier P_Bezier M_Files M_Create S_Core P_Core S_Files P_Files S_Create P_Create S_SubSpline M_SubSpline P_SubSpline P_SubRounds P_SubCut P_SubValue P_SubEnd.
Import ListNotations.
Local Open Scope list_scope.
Local Open Scope nat_scope.

(** * The copy with knot vectors *)
Definition kv_of (a : paxis) : list Qc := match a with BezierAxis p => bezier_knots p | KnotAxis _ kv => kv end.
Lemma with_knots_kv a : with_knots a = KnotAxis (ax_degree a) (kv_of a).
Proof. now destruct a. Qed.
Lemma all_knots_id limit dim axs : Forall (of_kind true limit dim) axs -> map with_knots axs = axs.
Proof. induction 1 as [|[p|p kv] axs H F IH]; cbn [map]; auto; [destruct H; discriminate|]. now rewrite IH. Qed.
Lemma bezier_knots_in p y : In y (bezier_knots p) -> y = 0%Qc \/ y = 1%Qc.
Proof. unfold bezier_knots. rewrite in_app_iff. intros [H|H]; apply repeat_spec in H; auto. Qed.
Lemma bezier_knots_nd p : non_decreasing (bezier_knots p).
Proof. destruct (bezier_knots_wf p) as (_ & N & _). exact N. Qed.
Lemma copy_ok limit dim s : sound limit dim s -> sound limit dim (same_spline_with_knot_vectors s) /\
  has_kvs (same_spline_with_knot_vectors s) = true /\ sp_weights (same_spline_with_knot_vectors s) = sp_weights s /\
  sp_axes (same_spline_with_knot_vectors s) = map with_knots (sp_axes s).
Proof.
  intros So. pose proof So as (St & W & R & Pw). destruct (kinds limit dim s St R) as (K & L & N).
  assert (has_knot_vectors s = has_kvs s) as E. { unfold has_knot_vectors, has_kvs. destruct (sp_axes s) as [|[|]]; easy. }
  destruct (has_kvs s) eqn:H; unfold same_spline_with_knot_vectors; rewrite E.
  - split; auto. split; auto. split; auto. symmetry. now apply (all_knots_id limit dim).
  - cbn [sp_weights sp_axes]. assert (has_kvs (Spl (map with_knots (sp_axes s)) (sp_cps s) (sp_weights s)) = true) as Hc.
    { unfold has_kvs. cbn [sp_axes]. destruct K as [|[p|p kv] axs H1 K]; [easy|reflexivity|destruct H1; discriminate]. }
    split; [|auto]. pose proof (same_spline_wf s W) as W'. unfold same_spline_with_knot_vectors in W'. rewrite E in W'.
    destruct (build limit dim (Spl (map with_knots (sp_axes s)) (sp_cps s) (sp_weights s)) (map with_knots (sp_axes s)) (sp_cps s) (sp_weights s)) as [_ B].
    + intros X. apply N. now apply map_eq_nil in X.
    + now rewrite map_length.
    + exact (dim_pos limit dim s St R).
    + rewrite Hc. apply Forall_map. eapply Forall_impl; [|exact K]. intros [p|p kv] [H1 H2]; [|discriminate]. cbn. split; auto. split.
      * split; [lia|]. split; [apply bezier_knots_nd|]. unfold bezier_knots. rewrite app_length, !repeat_length. lia.
      * apply Forall_forall. intros y Hy. apply bezier_knots_in in Hy as [->| ->]; discriminate.
    + exact R.
    + exact (proj1 (proj2 W')).
    + reflexivity.
    + destruct W as (_ & L1 & L2). destruct (sp_weights s); auto. congruence.
    + exact (conj B (conj W' (conj R Pw))).
Qed.

Lemma bezier_knots_clamped p : ax_clamped (KnotAxis p (bezier_knots p)).
Proof.
  cbn [ax_clamped]. rewrite bezier_knots_n, !bezier_knots_kn, Nat.leb_refl. cbn [Nat.leb].
  destruct (Nat.leb_spec (p + 1) p); [lia|]. destruct (Nat.leb_spec (p + 1 - 1) p); [|lia]. destruct (Nat.leb_spec (p + 1 + p) p); [lia|].
  repeat split; reflexivity.
Qed.
Lemma axis_shape a : ax_wf a -> ax_clamped a -> shape (ax_degree a) (ax_lower a) (ax_upper a) (kv_of a).
Proof.
  destruct a as [p|p kv]; intros W C; [|now apply shape_clamped].
  pose proof (shape_clamped p (bezier_knots p) (bezier_knots_wf p) (bezier_knots_clamped p)) as H. cbn [ax_degree kv_of].
  assert (ax_lower (KnotAxis p (bezier_knots p)) = ax_lower (BezierAxis p)) as E1. { cbn [ax_lower]. rewrite bezier_knots_kn, Nat.leb_refl. reflexivity. }
  assert (ax_upper (KnotAxis p (bezier_knots p)) = ax_upper (BezierAxis p)) as E2.
  { cbn [ax_upper]. rewrite bezier_knots_n, bezier_knots_kn. destruct (Nat.leb_spec (p + 1) p); [lia|reflexivity]. }
  now rewrite E1, E2 in H.
Qed.
Lemma kv_breaks a y : In y (kv_of a) -> In y (breaks a).
Proof. destruct a; cbn [kv_of breaks]; auto. intros H. apply bezier_knots_in in H as [->| ->]; cbn; auto. Qed.
Lemma kv_times_bezier p x : times x (bezier_knots p) = if Qc_eq_dec 0 x then p + 1 else if Qc_eq_dec 1 x then p + 1 else 0.
Proof.
  unfold bezier_knots. rewrite times_app. destruct (Qc_eq_dec 0 x) as [<-|N0]; [|destruct (Qc_eq_dec 1 x) as [<-|N1]].
  - rewrite times_repeat, (times_none _ (repeat 1%Qc _)); [lia|]. intros H. apply repeat_spec in H. discriminate.
  - rewrite times_repeat, (times_none _ (repeat 0%Qc _)); [lia|]. intros H. apply repeat_spec in H. discriminate.
  - rewrite !times_none; auto; intros H; apply repeat_spec in H; congruence.
Qed.
Lemma kv_times_le a x : times x (breaks a) <= ax_degree a + 1 -> times x (kv_of a) <= ax_degree a + 1.
Proof. destruct a; cbn [kv_of breaks ax_degree]; auto. intros _. rewrite kv_times_bezier. destruct (Qc_eq_dec _ _); [|destruct (Qc_eq_dec _ _)]; lia. Qed.

Lemma functional_axes_ext axes axes' us us' f :
  length us = length axes -> length us' = length axes' ->
  Forall2 (fun au au' => ax_n (fst au) = ax_n (fst au') /\
     forall i, (i < ax_n (fst au))%nat -> ax_fun (fst au) (snd au) i = ax_fun (fst au') (snd au') i)
    (combine axes us) (combine axes' us') ->
  functional axes us f = functional axes' us' f.
Proof.
  intros L L' H.
  assert (E : map ax_n axes = map ax_n axes').
  { rewrite <- (sp_basis_fst axes us), <- (sp_basis_fst axes' us') by auto. unfold sp_basis.
    rewrite !map_map. induction H as [|? ? ? ? [H _] HF IH]; cbn in *; auto. f_equal; auto. }
  unfold functional. rewrite <- E. apply tensor_ext; auto. unfold sp_basis. clear -H.
  induction H as [|? ? ? ? H HF IH]; cbn; constructor; auto.
Qed.
Lemma same_knots axs us : length us = length axs -> Forall2 (fun au au' => ax_n (fst au) = ax_n (fst au') /\
     forall i, (i < ax_n (fst au))%nat -> ax_fun (fst au) (snd au) i = ax_fun (fst au') (snd au') i)
    (combine axs us) (combine (map with_knots axs) us).
Proof.
  revert us; induction axs as [|a axs IH]; intros [|u us] L; cbn in L; try lia; [constructor|]. cbn [map combine]. constructor; [|apply IH; lia].
  cbn [fst snd]. split; [symmetry; apply with_knots_n|]. intros i Hi. destruct a; [|reflexivity]. symmetry. now apply bezier_knots_fun.
Qed.
Lemma domain_with_knots axs us : Forall2 ax_domain axs us <-> Forall2 ax_domain (map with_knots axs) us.
Proof.
  revert us; induction axs as [|a axs IH]; intros us; split; intros H; inversion H; subst; cbn [map]; constructor; try (now apply with_knots_domain); now apply IH.
Qed.
Lemma split_nth {A} (l : list A) k x : nth_error l k = Some x -> l = firstn k l ++ x :: skipn (S k) l.
Proof. revert k; induction l as [|y l IH]; intros [|k] H; cbn in *; try easy; [now injection H as ->|]. f_equal. now apply IH. Qed.

Lemma f2_cons {A B} (P : A -> B -> Prop) a l v : Forall2 P (a :: l) v -> exists u v', v = u :: v' /\ P a u /\ Forall2 P l v'.
Proof. intros H. inversion H; subst; eauto. Qed.

Lemma knots_breaks a p kv : a = KnotAxis p kv -> breaks a = kv_of a.
Proof. now intros ->. Qed.

Section Part.
Variables (limit dim : nat) (tol : Qc) (ins : spline -> nat -> Qc -> spline) (s : spline) (k : nat) (ax : paxis).
Hypothesis T : (0 < tol)%Qc.
Hypothesis RM : raises_multiplicity tol ins.
Hypothesis So : sound limit dim s.
Hypothesis Ek : nth_error (sp_axes s) k = Some ax.
Let c0 := same_spline_with_knot_vectors s.
Let p := ax_degree ax.
Let pre := firstn k (sp_axes c0).
Let post := skipn (S k) (sp_axes c0).

Lemma k_lt : k < length (sp_axes s).
Proof. apply nth_error_Some. rewrite Ek. discriminate. Qed.
Lemma wf_ax : ax_wf ax.
Proof. destruct So as (_ & (W & _) & _). rewrite Forall_forall in W. apply nth_error_In in Ek. auto. Qed.
Lemma c0_nth : nth_error (sp_axes c0) k = Some (KnotAxis p (kv_of ax)).
Proof. destruct (copy_ok limit dim s So) as (_ & _ & _ & E). unfold c0. rewrite E, nth_error_map, Ek. cbn. now rewrite with_knots_kv. Qed.
Lemma c0_axes : sp_axes c0 = pre ++ KnotAxis p (kv_of ax) :: post.
Proof. apply split_nth, c0_nth. Qed.
Lemma pre_len : length pre = k.
Proof. exact (firstn_len_nth _ _ _ c0_nth). Qed.
Lemma pre_eq : pre = map with_knots (firstn k (sp_axes s)) /\ post = map with_knots (skipn (S k) (sp_axes s)).
Proof. destruct (copy_ok limit dim s So) as (_ & _ & _ & E). unfold pre, post, c0. rewrite E. now rewrite firstn_map, skipn_map. Qed.
Lemma c0_value us d : sp_domain c0 us -> sp_value c0 us d = sp_value s us d.
Proof.
  intros D. apply same_spline_value. apply Forall2_len in D. destruct (copy_ok limit dim s So) as (_ & _ & _ & E). unfold c0 in D. rewrite E, map_length in D. auto.
Qed.

Lemma rounds_done plane : Forall (cuttable tol ax) plane -> plane <> [] -> (forall x y, In x plane -> In y plane -> y = x \/ (tol <= qabs (y - x))%Qc) ->
  exists c kv, insert_rounds ins (p + 1) k plane c0 = Some c /\ inv limit dim c0 k p (kv_of ax) (ax_lower ax) (ax_upper ax) plane c kv /\
    (forall x, In x plane -> times x kv = p + 1) /\ shape p (ax_lower ax) (ax_upper ax) (kv_of ax) /\ (forall x, In x plane -> clear_of tol kv x).
Proof.
  intros F N Ap. destruct (copy_ok limit dim s So) as (S1 & S2 & _ & _). destruct plane as [|x0 plane0] eqn:Epl; [easy|]. rewrite <- Epl in *.
  assert (cuttable tol ax x0) as (Hp & Hc & _). { rewrite Forall_forall in F. apply F. rewrite Epl. now left. }
  pose proof (axis_shape ax wf_ax Hc) as Sh.
  assert (Forall (clear_of tol (kv_of ax)) plane) as Fc.
  { eapply Forall_impl; [|exact F]. intros x (_ & _ & _ & D & _) y Hy. apply D, kv_breaks, Hy. }
  destruct (all_rounds limit dim tol ins c0 k p (kv_of ax) (ax_lower ax) (ax_upper ax) plane) as (c & kv & E & I & X); auto.
  - exact c0_nth.
  - eapply Forall_impl; [|exact F]. intros x (_ & _ & D & _). exact D.
  - eapply Forall_impl; [|exact F]. intros x (_ & _ & _ & _ & D). now apply kv_times_le.
  - exists c, kv. split; [exact E|]. split; [exact I|]. split; [exact X|]. split; [exact Sh|].
    intros x Hx. exact (inv_clear limit dim tol c0 k p (kv_of ax) (ax_lower ax) (ax_upper ax) plane Fc Ap c kv x I Hx).
Qed.
Lemma sub_spline_cut plane c first : insert_rounds ins (p + 1) k plane c0 = Some c -> length plane <= 2 -> hd_error plane = Some first ->
  sub_spline limit tol ins s k plane = cut limit tol s c k first (last plane first) (length plane =? 2).
Proof.
  intros E L H. unfold sub_spline. pose proof k_lt. destruct (Nat.ltb_spec (length (sp_axes s)) k); [lia|]. destruct (Nat.ltb_spec 2 (length plane)); [lia|].
  fold c0. rewrite c0_nth. cbn [ax_degree]. rewrite E. destruct plane; [discriminate|]. now injection H as ->.
Qed.

Section Interval.
Variables x0 x1 : Qc.
Hypothesis C0 : cuttable tol ax x0.
Hypothesis C1 : cuttable tol ax x1.
Hypothesis X01 : (x0 + tol <= x1)%Qc.

Lemma x_lt : (x0 < x1)%Qc.
Proof. clear - T X01. qlra. Qed.
Lemma interval_ready : exists c kv l1 m l2, let K := repeat x0 (p + 1) ++ m ++ repeat x1 (p + 1) in
  insert_rounds ins (p + 1) k [x0; x1] c0 = Some c /\ inv limit dim c0 k p (kv_of ax) (ax_lower ax) (ax_upper ax) [x0; x1] c kv /\
  kv = l1 ++ K ++ l2 /\ shape p x0 x1 K /\ Forall (fun y => x0 < y /\ y < x1)%Qc m /\
  last_near tol kv x0 = Some (length l1 + p) /\ last_near tol kv x1 = Some (length l1 + ax_n (KnotAxis p K) + p) /\
  shape p (ax_lower ax) (ax_upper ax) (kv_of ax).
Proof.
  assert (tol <= qabs (x1 - x0))%Qc as A1. { pose proof (P_Poly.qabs_ge (x1 - x0)%Qc). clear - X01 H. qlra. }
  assert (tol <= qabs (x0 - x1))%Qc as A2. { now rewrite qabs_sub_sym. }
  assert (forall x y, In x [x0; x1] -> In y [x0; x1] -> y = x \/ (tol <= qabs (y - x))%Qc) as Ap.
  { intros x y [<-|[<-|[]]] [<-|[<-|[]]]; auto. }
  destruct (rounds_done [x0; x1]) as (c & kv & E & I & X & Sh & Cl); auto. { discriminate. }
  destruct (three_parts p _ _ kv x0 x1 (i_shape _ _ _ _ _ _ _ _ _ _ _ I) x_lt (X x0 (or_introl eq_refl)) (X x1 (or_intror (or_introl eq_refl)))) as (l1 & m & l2 & Ekv & ShK & F1 & Fm & F2).
  exists c, kv, l1, m, l2. cbv zeta. split; [exact E|]. split; [exact I|]. split; [exact Ekv|]. split; [exact ShK|]. split; [exact Fm|].
  pose proof x_lt as Xl. split; [|split; [|exact Sh]].
  - pose proof (Cl x0 (or_introl eq_refl)) as Cx. assert (kv = l1 ++ repeat x0 (S p) ++ (m ++ repeat x1 (p + 1) ++ l2)) as Ek2.
    { rewrite Ekv. replace (S p) with (p + 1) by lia. rewrite <- !app_assoc. reflexivity. }
    rewrite Ek2 in *. apply last_near_at; auto. rewrite !Forall_app. split; [|split].
    + eapply Forall_impl; [|exact Fm]. cbn. tauto.
    + apply Forall_forall. intros y Hy. apply repeat_spec in Hy. now subst.
    + eapply Forall_impl; [|exact F2]. cbn. intros y Hy. clear - Hy Xl. qlra.
  - pose proof (Cl x1 (or_intror (or_introl eq_refl))) as Cx. assert (kv = (l1 ++ repeat x0 (p + 1) ++ m) ++ repeat x1 (S p) ++ l2) as Ek2.
    { rewrite Ekv. replace (S p) with (p + 1) by lia. rewrite <- !app_assoc. reflexivity. }
    rewrite Ek2 in *. rewrite (last_near_at tol _ x1 p l2 T Cx F2). f_equal. cbn [ax_n]. rewrite !app_length, !repeat_length. lia.
Qed.

(** Values on the half-open interval extend to its end. *)
Lemma extend_end r K : sp_axes r = pre ++ KnotAxis p K :: post -> shape p x0 x1 K -> shape p (ax_lower ax) (ax_upper ax) (kv_of ax) -> sp_wf r -> positive_weights r ->
  (sp_weights r = None <-> sp_weights s = None) -> x1 = ax_upper ax \/ times x1 (kv_of ax) <= p ->
  forall v1 v2 d, Forall2 ax_domain pre v1 -> Forall2 ax_domain post v2 ->
  (forall u, (x0 <= u)%Qc -> (u < x1)%Qc -> sp_value r (v1 ++ u :: v2) d = sp_value c0 (v1 ++ u :: v2) d) ->
  sp_value r (v1 ++ x1 :: v2) d = sp_value c0 (v1 ++ x1 :: v2) d.
Proof.
  intros Er ShK Sh Wr Pr Kw Hc v1 v2 d D1 D2 V. pose proof x_lt as Xl.
  destruct (copy_ok limit dim s So) as ((_ & W0 & _ & P0) & _ & Ew & _).
  destruct C0 as (_ & _ & (Dl & _) & _), C1 as (_ & _ & (_ & Du) & _).
  destruct (left_piece p _ _ K x1 ShK Xl (Qcle_refl _) (or_introl eq_refl)) as (y1 & i1 & Y1 & Y1' & B1).
  destruct (left_piece p _ _ (kv_of ax) x1 Sh (Qcle_lt_trans _ _ _ Dl Xl) Du Hc) as (y2 & i2 & Y2 & Y2' & B2).
  assert (exists y, (y1 <= y)%Qc /\ (y2 <= y)%Qc /\ (y < x1)%Qc) as (y & Ya & Yb & Yc).
  { destruct (Qclt_le_dec y1 y2) as [H|H]; [exists y2|exists y1]; repeat split; auto; try apply Qcle_refl; now apply Qclt_le_weak. }
  apply (value_end pre post (KnotAxis p (kv_of ax)) (KnotAxis p K) c0 r p (kn (kv_of ax)) i2 p (kn K) i1 x1 y v1 v2 d c0_axes Er W0 Wr P0 Pr); auto.
  - unfold c0. now rewrite Ew.
  - intros u U1 U2. split; [apply (clamped_domain p (kv_of ax) _ _ u Sh)|apply (clamped_domain p K _ _ u ShK)]; split; auto.
    + apply Qcle_trans with y; auto. now apply Qcle_trans with y2.
    + now apply Qcle_trans with x1.
    + apply Qcle_trans with y; auto. now apply Qcle_trans with y1.
  - intros j u U1 U2. apply B2; auto. now apply Qcle_trans with y.
  - intros j u U1 U2. apply B1; auto. now apply Qcle_trans with y.
  - intros u U1 U2. apply V; auto. apply Qcle_trans with y; auto. now apply Qcle_trans with y1.
Qed.

Lemma interval_knots : has_kvs s = true -> exists r K, sub_spline limit tol ins s k [x0; x1] = Some r /\ sound limit dim r /\
  (sp_weights r = None <-> sp_weights s = None) /\ sp_axes r = firstn k (sp_axes s) ++ KnotAxis p K :: skipn (S k) (sp_axes s) /\
  (forall y, In y K -> In y (kv_of ax) \/ y = x0 \/ y = x1) /\
  ax_clamped (KnotAxis p K) /\ ax_lower (KnotAxis p K) = x0 /\ ax_upper (KnotAxis p K) = x1 /\
  forall us d, sp_domain r us -> d < dim -> (nth k us 0 < x1)%Qc \/ continuous_at ax x1 -> sp_value r us d = sp_value s us d.
Proof.
  intros Hk. destruct interval_ready as (c & kv & l1 & m & l2 & E & I & Ekv & ShK & Fm & E0 & E1 & Sh). set (K := repeat x0 (p + 1) ++ m ++ repeat x1 (p + 1)) in *.
  clearbody K. clear Fm m.
  destruct (shape_wf p x0 x1 K ShK) as (WK & CK & LK & UK). pose proof I as [Is Ia Ikw Iv Ish Ifr It].
  destruct (copy_ok limit dim s So) as (S1 & S2 & Ew & Eax).
  pose proof So as (St & _ & R & _). destruct (kinds limit dim s St R) as (Kd & Ll & _). rewrite Hk in Kd.
  assert (sp_axes c0 = sp_axes s) as Ec0. { unfold c0. rewrite Eax. now apply (all_knots_id limit dim). }
  pose proof Is as (Stc & (Wc & _) & Rc & _). destruct (kinds limit dim c Stc Rc) as (Kc & Lc & _).
  assert (has_kvs c = true) as Hkc. { exact (inv_kvs limit dim c0 k p (kv_of ax) (ax_lower ax) (ax_upper ax) [x0; x1] c0_nth S2 c kv I). } rewrite Hkc in Kc. rewrite Ia in Kc, Wc, Lc. fold pre post in Kc, Wc, Ia, Lc.
  apply Forall_app in Kc as [Kc1 Kc2]. pose proof (Forall_inv Kc2) as Kc3. pose proof (Forall_inv_tail Kc2) as Kc4.
  apply Forall_app in Wc as [Wc1 Wc2]. pose proof (Forall_inv Wc2) as Wc3. pose proof (Forall_inv_tail Wc2) as Wc4. subst kv.
  destruct (cut_interval limit dim tol s c k p _ pre post Is Ia pre_len ltac:(rewrite Ikw; unfold c0; now rewrite Ew) x0 x1 l1 K l2 (pre ++ KnotAxis p K :: post) eq_refl WK E0 E1)
    as (r & Er & Ear & Sr & Kr & V).
  { rewrite app_length in *. cbn [length] in *. exact Lc. }
  { rewrite Hk. apply Forall_app. split; auto. constructor; auto. cbn. split; auto. split.
    - destruct (shape_kn p x0 x1 K ShK) as (L & _). split; [lia|]. split; [apply WK|lia].
    - destruct Kc3 as (_ & _ & B). rewrite !Forall_app in B. apply B. }
  { apply Forall_app. split; auto. }
  { rewrite Ia, !map_app. reflexivity. }
  { rewrite map_app. reflexivity. }
  { intros _. reflexivity. }
  exists r, K. split; [rewrite (sub_spline_cut [x0; x1] c x0 E); auto|]. split; [exact Sr|]. split; [exact Kr|].
  split; [rewrite Ear; unfold pre, post; rewrite Ec0; reflexivity|].
  split; [intros y Hy; destruct (Ifr y) as [H|[H|[H|[]]]]; auto; apply in_or_app; right; apply in_or_app; now left|]. split; [exact CK|]. split; [exact LK|]. split; [exact UK|].
  intros us d D Hd Hu. unfold sp_domain in D. rewrite Ear in D. apply Forall2_app_inv_l in D as (v1 & v2' & D1 & D2 & ->).
  destruct (f2_cons _ _ _ _ D2) as (u & v2 & -> & Du & D3). assert (length v1 = k) as Lv1. { rewrite <- pre_len. symmetry. exact (Forall2_len _ _ _ D1). }
  assert (length v2 = length post) as Lv2. { symmetry. exact (Forall2_len _ _ _ D3). }
  rewrite nth_mid' in Hu by auto.
  assert (forall w, (x0 <= w)%Qc -> (w <= x1)%Qc -> sp_domain c0 (v1 ++ w :: v2)) as Dc.
  { intros w W1 W2. unfold sp_domain. rewrite c0_axes. apply Forall2_app; auto. constructor; auto. apply (clamped_domain _ _ _ _ w Sh).
    destruct C0 as (_ & _ & (Q1 & _) & _), C1 as (_ & _ & (_ & Q2) & _). split; [now apply Qcle_trans with x0|now apply Qcle_trans with x1]. }
  assert (forall w, (x0 <= w)%Qc -> (w < x1)%Qc -> sp_value r (v1 ++ w :: v2) d = sp_value c0 (v1 ++ w :: v2) d) as Vw.
  { intros w W1 W2. rewrite <- Iv by (auto; apply Dc; auto; now apply Qclt_le_weak). apply V.
    - rewrite !app_length. cbn [length]. pose proof pre_len as Lp. rewrite Lp, Lv2. lia.
    - intros sigma f Hs. rewrite Ia. apply (functional_window pre _ (KnotAxis p K) post v1 v2 w w (length l1)); auto.
      + rewrite pre_len. exact Lv1.
      + cbn [ax_n]. rewrite !app_length. destruct WK as (LK' & _). cbn [ax_n] in LK'. lia.
      + intros i _. apply window; auto; [rewrite LK; auto|rewrite UK; auto]. }
  rewrite <- c0_value by (apply (clamped_domain p K x0 x1 u ShK) in Du as [Q1 Q2]; now apply Dc).
  apply (clamped_domain p K x0 x1 u ShK) in Du as [Q1 Q2]. destruct (Qclt_le_dec u x1) as [Lt|Ge]; [now apply Vw|].
  assert (u = x1) as -> by now apply Qcle_antisym. destruct Hu as [Hu|Hu]; [exfalso; clear - Hu; qlra|].
  apply (extend_end r K Ear ShK Sh); auto.
  - apply Sr.
  - apply Sr.
  - destruct Hu as [Hu|Hu]; [now left|right]. pose proof c0_nth as X. rewrite Ec0, Ek in X. injection X as X. now rewrite <- (knots_breaks _ _ _ X).
Qed.

Lemma two_knots_fun u i : i < p + 1 -> ax_fun (KnotAxis p (repeat x0 (p + 1) ++ repeat x1 (p + 1))) u i = bernstein p i ((u - x0) / (x1 - x0))%Qc.
Proof.
  intros Hi. set (K := repeat x0 (p + 1) ++ repeat x1 (p + 1)). cbn [ax_fun]. assert (ax_n (KnotAxis p K) = p + 1) as ->. { cbn [ax_n]. unfold K. rewrite app_length, !repeat_length. lia. }
  unfold bspline_basis. assert (find_span K p (p + 1) u = p) as ->.
  { unfold find_span. replace (p + 1 - p) with 1 by lia. cbn [seq filter]. destruct (_ && _)%bool; reflexivity. }
  rewrite (local_bernstein (kn K) p p x0 x1 p i u); auto.
  - rewrite Nat.sub_diag, Nat.sub_0_r. cbn [Nat.leb andb]. destruct (Nat.leb_spec i p); [auto|lia].
  - intros j _ J. unfold K. rewrite kn_app1 by (rewrite repeat_length; lia). apply nth_repeat_in. lia.
  - intros j J1 J2. unfold K. rewrite kn_app2 by (rewrite !repeat_length; lia). rewrite repeat_length. unfold kn. apply nth_repeat_in. lia.
  - exact x_lt.
Qed.

Lemma interval_bezier : has_kvs s = false -> exists r, sub_spline limit tol ins s k [x0; x1] = Some r /\ sound limit dim r /\
  (sp_weights r = None <-> sp_weights s = None) /\ sp_axes r = sp_axes s /\
  forall us d, sp_domain r us -> d < dim -> sp_value r us d = sp_value s (S_Bezier.rescaled k x0 x1 us) d.
Proof.
  intros Hk. destruct interval_ready as (c & kv & l1 & m & l2 & E & I & Ekv & ShK & Fm & E0 & E1 & Sh). pose proof I as [Is Ia Ikw Iv Ish Ifr It].
  destruct (copy_ok limit dim s So) as (S1 & S2 & Ew & Eax). pose proof So as (St & W & R & _). destruct (kinds limit dim s St R) as (Kd & Ll & Na). rewrite Hk in Kd.
  assert (exists q, ax = BezierAxis q) as (q & Eq).
  { pose proof (nth_error_In _ _ Ek) as In1. rewrite Forall_forall in Kd. specialize (Kd _ In1). destruct ax; [eauto|]. destruct Kd. discriminate. }
  assert (p = q) as Epq by (unfold p; rewrite Eq; reflexivity).
  assert (0 <= x0 /\ x1 <= 1)%Qc as [Z0 Z1]. { destruct C0 as (_ & _ & (Q1 & _) & _), C1 as (_ & _ & (_ & Q2) & _). rewrite Eq in Q1, Q2. auto. }
  assert (m = []) as ->.
  { destruct m as [|y m]; auto. exfalso. destruct (Forall_inv Fm) as [Y1 Y2]. subst kv.
    assert (In y (l1 ++ (repeat x0 (p + 1) ++ (y :: m) ++ repeat x1 (p + 1)) ++ l2)) as In1
      by (apply in_or_app; right; apply in_or_app; left; apply in_or_app; right; now left).
    destruct (Ifr y In1) as [H|[H|[H|[]]]].
    - rewrite Eq in H. cbn [kv_of] in H. apply bezier_knots_in in H as [->| ->]; clear - Y1 Y2 Z0 Z1; qlra.
    - rewrite <- H in Y1. clear - Y1. qlra.
    - rewrite <- H in Y2. clear - Y2. qlra. }
  cbn [app] in *. set (K := repeat x0 (p + 1) ++ repeat x1 (p + 1)) in *. clear Fm.
  destruct (shape_wf p x0 x1 K ShK) as (WK & CK & LK & UK).
  assert (ax_n (KnotAxis p K) = p + 1) as NK. { cbn [ax_n]. unfold K. rewrite app_length, !repeat_length. lia. }
  fold pre post in Ia.
  pose proof (split_nth _ _ _ Ek) as Es. destruct pre_eq as [Ep1 Ep2]. set (pre0 := firstn k (sp_axes s)) in *. set (post0 := skipn (S k) (sp_axes s)) in *.
  assert (map ax_n (sp_axes s) = map ax_n pre ++ ax_n (KnotAxis p K) :: map ax_n post) as En.
  { rewrite Es, Ep1, Ep2, map_app, !map_map. cbn [map]. rewrite NK, Eq, Epq. cbn [ax_n].
    f_equal; [|f_equal]; apply map_ext; intros; symmetry; apply with_knots_n. }
  subst kv. pose proof Is as (_ & (Wc & _) & _). rewrite Ia in Wc. apply Forall_app in Wc as [Wc1 Wc2]. pose proof (Forall_inv Wc2) as Wc3. pose proof (Forall_inv_tail Wc2) as Wc4.
  destruct (cut_interval limit dim tol s c k p _ pre post Is Ia pre_len ltac:(rewrite Ikw; unfold c0; now rewrite Ew) x0 x1 l1 K l2 (sp_axes s) eq_refl WK E0 E1)
    as (r & Er & Ear & Sr & Kr & V); auto.
  { now rewrite Hk. }
  { apply W. }
  { rewrite Ia. fold pre0 post0 in Es. rewrite Es, Ep1, Ep2, !map_app. cbn [map]. rewrite !map_map. f_equal; [|f_equal].
    - apply map_ext. now intros [|].
    - apply map_ext. now intros [|]. }
  { rewrite Hk. discriminate. }
  exists r. split; [rewrite (sub_spline_cut [x0; x1] c x0 E); auto|]. split; [exact Sr|]. split; [exact Kr|]. split; [exact Ear|].
  intros us d D Hd. unfold sp_domain in D. rewrite Ear, Es in D. apply Forall2_app_inv_l in D as (v1 & v2' & D1 & D2 & ->).
  destruct (f2_cons _ _ _ _ D2) as (t & v2 & -> & Dt & D3).
  set (u := (x0 + (x1 - x0) * t)%Qc). assert (length v1 = length pre0) as Lv1 by (symmetry; exact (Forall2_len _ _ _ D1)).
  assert (length v2 = length post0) as Lv2 by (symmetry; exact (Forall2_len _ _ _ D3)).
  assert (length pre0 = k) as Lk. { unfold pre0. exact (firstn_len_nth _ _ _ Ek). }
  assert (length pre = length pre0 /\ length post = length post0) as [Lp Lq]. { rewrite Ep1, Ep2, !map_length. auto. }
  unfold S_Bezier.rescaled. rewrite nth_mid', set_nth_mid' by congruence. fold u.
  assert (0 <= t /\ t <= 1)%Qc as [T0 T1]. { rewrite Eq in Dt. exact Dt. }
  pose proof x_lt as Xl.
  assert (forall w, (x0 <= w)%Qc -> (w <= x1)%Qc -> sp_domain c0 (v1 ++ w :: v2)) as Dc.
  { intros w W1 W2. unfold sp_domain. rewrite c0_axes. apply Forall2_app; [rewrite Ep1; now apply (proj1 (domain_with_knots _ _))|]. constructor; [|rewrite Ep2; now apply (proj1 (domain_with_knots _ _))].
    apply (clamped_domain _ _ _ _ w Sh).
    destruct C0 as (_ & _ & (Q1 & _) & _), C1 as (_ & _ & (_ & Q2) & _). split; [now apply Qcle_trans with x0|now apply Qcle_trans with x1]. }
  (* the part on the rescaled axis and on the knotted one *)
  assert (forall w g, w = (x0 + (x1 - x0) * g)%Qc -> Forall2 (fun au au' => ax_n (fst au) = ax_n (fst au') /\
     forall i, (i < ax_n (fst au))%nat -> ax_fun (fst au) (snd au) i = ax_fun (fst au') (snd au') i)
     (combine (sp_axes s) (v1 ++ g :: v2)) (combine (pre ++ KnotAxis p K :: post) (v1 ++ w :: v2))) as Ax.
  { intros w g Hw. rewrite Es, !combine_app by congruence. cbn [combine]. apply Forall2_app; [rewrite Ep1; now apply same_knots|].
    constructor; [|rewrite Ep2; now apply same_knots]. cbn [fst snd]. rewrite Eq. cbn [ax_n]. split; [rewrite <- Epq; now rewrite <- NK|].
    intros i Hi. unfold K. rewrite two_knots_fun by lia. cbn [ax_fun]. rewrite Epq. f_equal. rewrite Hw. field. clear - Xl. intros H. assert (x1 = x0) by (rewrite <- (Qcplus_0_l x0), <- H; ring). subst. qlra. }
  assert (forall w g, w = (x0 + (x1 - x0) * g)%Qc -> (x0 <= w)%Qc -> (w < x1)%Qc -> sp_value r (v1 ++ g :: v2) d = sp_value c0 (v1 ++ w :: v2) d) as Vw.
  { intros w g Hw W1 W2. rewrite <- Iv by (auto; apply Dc; auto; now apply Qclt_le_weak). apply V.
    - rewrite Es, !app_length. cbn [length]. lia.
    - intros sigma f Hs. rewrite (functional_axes_ext _ (pre ++ KnotAxis p K :: post) _ (v1 ++ w :: v2)); [|rewrite Es, !app_length; cbn [length]; lia|rewrite !app_length; cbn [length]; lia|now apply Ax].
      rewrite Ia. apply (functional_window pre _ (KnotAxis p K) post v1 v2 w w (length l1)); try congruence.
      + cbn [ax_n]. rewrite !app_length. destruct WK as (LK' & _). cbn [ax_n] in LK'. lia.
      + intros i _. apply window; auto; [rewrite LK; auto|rewrite UK; auto].
      + intros d1 i d2 V1 Hi V2. rewrite <- (Hs d1 i d2 V1 Hi V2). f_equal. f_equal. rewrite En, map_app. reflexivity. }
  assert (u <= x1)%Qc as U1. { unfold u. replace x1 with (x0 + (x1 - x0) * 1)%Qc at 2 by ring. clear - T1 Xl. qnra. }
  assert (x0 <= u)%Qc as U0. { unfold u. clear - T0 Xl. qnra. }
  rewrite <- c0_value by now apply Dc. destruct (Qclt_le_dec u x1) as [Lt|Ge]; [now apply Vw|].
  set (rK := Spl (pre ++ KnotAxis p K :: post) (sp_cps r) (sp_weights r)).
  assert (forall w g, w = (x0 + (x1 - x0) * g)%Qc -> sp_value r (v1 ++ g :: v2) d = sp_value rK (v1 ++ w :: v2) d) as Vr.
  { intros w g Hw. replace r with (Spl (sp_axes s) (sp_cps r) (sp_weights r)) at 1 by (rewrite <- Ear; now destruct r). unfold rK.
    apply value_axes_ext; [rewrite Es, !app_length; cbn [length]; lia|rewrite !app_length; cbn [length]; lia|now apply Ax]. }
  rewrite (Vr u t eq_refl). assert (u = x1) as Eu by now apply Qcle_antisym. rewrite Eu.
  destruct Sr as (_ & (Wr1 & Wr2 & Wr3) & _ & Pr).
  apply (extend_end rK K eq_refl ShK Sh); auto.
  - unfold rK. split; [|split]; cbn [sp_axes sp_cps sp_weights].
    + apply Forall_app. split; auto.
    + unfold sp_res in *. cbn [sp_axes]. rewrite Ear, En in Wr2. rewrite map_app. exact Wr2.
    + unfold sp_res in *. cbn [sp_axes]. rewrite Ear, En in Wr3. rewrite map_app. exact Wr3.
  - destruct (Qc_eq_dec x1 1) as [->|N]; [left; rewrite Eq; reflexivity|]. right. rewrite Eq. cbn [kv_of]. rewrite kv_times_bezier.
    destruct (Qc_eq_dec 0 x1) as [<-|]; [exfalso; clear - Xl Z0; qlra|]. destruct (Qc_eq_dec 1 x1); [congruence|lia].
  - rewrite Ep1. now apply (proj1 (domain_with_knots _ _)).
  - rewrite Ep2. now apply (proj1 (domain_with_knots _ _)).
  - intros w W1 W2. assert (w = x0 + (x1 - x0) * ((w - x0) / (x1 - x0)))%Qc as Ew2.
    { field. clear - Xl. intros H. assert (x1 = x0) by (rewrite <- (Qcplus_0_l x0), <- H; ring). subst. qlra. }
    rewrite <- (Vr w _ Ew2). now apply Vw.
Qed.
End Interval.

(** * Slices *)
Lemma slice_unit kv l1 l2 x i : shape p (ax_lower ax) (ax_upper ax) kv -> kv = l1 ++ repeat x (p + 1) ++ l2 -> Forall (fun y => y < x)%Qc l1 -> Forall (fun y => x < y)%Qc l2 ->
  l2 <> [] -> i < ax_n (KnotAxis p kv) -> ax_fun (KnotAxis p kv) x i = if i =? length l1 then 1%Qc else 0%Qc.
Proof.
  intros Sh Ekv F1 F2 N Hi. destruct (shape_wf p _ _ kv Sh) as (W & _). pose proof W as (L & ND & _).
  destruct l2 as [|y l2]; [easy|]. pose proof (Forall_inv F2) as Hy. cbn beta in Hy. cbn [ax_fun]. set (n := ax_n (KnotAxis p kv)) in *.
  assert (length kv = length l1 + (p + 1) + S (length l2)) as Lkv. { rewrite Ekv, !app_length, repeat_length. cbn. lia. }
  assert (n = length l1 + S (length l2)) as En. { unfold n. cbn [ax_n]. lia. }
  assert (forall j, length l1 <= j -> j <= length l1 + p -> kn kv j = x) as Kx.
  { intros j J1 J2. rewrite Ekv. rewrite (kn_app2 l1) by (rewrite ?app_length, ?repeat_length; cbn [length]; lia). rewrite kn_app1 by (rewrite repeat_length; lia). apply nth_repeat_in. lia. }
  assert (kn kv (S (length l1 + p)) = y) as Ky.
  { rewrite Ekv, (kn_app2 l1) by (rewrite ?app_length, ?repeat_length; cbn [length]; lia). rewrite kn_app2 by (rewrite ?app_length, ?repeat_length; cbn [length]; lia). rewrite repeat_length. replace (S (length l1 + p) - length l1 - (p + 1)) with 0 by lia. reflexivity. }
  unfold bspline_basis. rewrite (find_span_unique kv p n x (length l1 + p)).
  - rewrite basis_blossom, blossom_at_left; try lia.
    + destruct (Nat.eqb_spec (i + p) (length l1 + p)), (Nat.eqb_spec i (length l1)); auto; lia.
    + now apply kn_mono.
    + rewrite Ky, Kx by lia. exact Hy.
    + intros j J1 J2. apply Kx; lia.
  - exact W.
  - pose proof (kn_mono kv ND) as M. split.
    + rewrite <- (Kx (length l1 + p)) by lia. apply M. lia.
    + rewrite <- (Kx (length l1)) by lia. apply M. lia.
  - pose proof (sh_in _ _ _ _ Sh) as Fr. pose proof (sh_high _ _ _ _ Sh) as Tb. set (b := ax_upper ax) in *.
    assert (x < b)%Qc as Xb. { rewrite Ekv, !Forall_app in Fr. destruct Fr as (_ & _ & Fr). destruct (Forall_inv Fr) as [_ Q]. now apply Qclt_le_trans with y. }
    assert (times b kv = times b (y :: l2)) as Et.
    { rewrite Ekv, !times_app, (times_none b l1), (times_none b (repeat x _)); auto.
      - intros H. apply repeat_spec in H. rewrite H in Xb. clear - Xb. qlra.
      - intros H. rewrite Forall_forall in F1. apply F1 in H. clear - H Xb. qlra. }
    pose proof (count_occ_bound Qc_eq_dec b (y :: l2)) as Cb. fold (times b (y :: l2)) in Cb. cbn [length] in Cb.
    split; [lia|]. split; [lia|]. rewrite Ky, (Kx (length l1 + p)) by lia. split; [exact Hy|]. split; [apply Qcle_refl|now left].
Qed.
Lemma slice_any x : cuttable tol ax x -> 2 <= length (sp_axes s) -> exists r, sub_spline limit tol ins s k [x] = Some r /\ sound limit dim r /\
  (sp_weights r = None <-> sp_weights s = None) /\ sp_axes r = firstn k (sp_axes s) ++ skipn (S k) (sp_axes s) /\
  forall us d, sp_domain r us -> d < dim -> sp_value r us d = sp_value s (insert_at k x us) d.
Proof.
  intros Cx L2. destruct (rounds_done [x]) as (c & kv & E & I & X & Sh & Cl); auto. { discriminate. } { intros y z [<-|[]] [<-|[]]. now left. }
  specialize (X x (or_introl eq_refl)). specialize (Cl x (or_introl eq_refl)). pose proof I as [Is Ia Ikw Iv Ish Ifr It]. fold pre post in Ia.
  destruct (copy_ok limit dim s So) as (S1 & S2 & Ew & Eax). pose proof So as (St & (W & _) & R & _). destruct (kinds limit dim s St R) as (Kd & Ll & _).
  destruct (sorted_parts x kv (sh_sorted _ _ _ _ Ish)) as (l1 & l2 & D & F1 & F2). rewrite X in D.
  assert (last_near tol kv x = Some (length l1 + p)) as En. { clear E I. rewrite D in *. replace (p + 1) with (S p) in * by lia. now apply last_near_at. }
  pose proof Cx as (_ & _ & (Dx1 & Dx2) & _). pose proof (split_nth _ _ _ Ek) as Es. destruct pre_eq as [Ep1 Ep2]. set (pre0 := firstn k (sp_axes s)) in *. set (post0 := skipn (S k) (sp_axes s)) in *.
  destruct (shape_wf p _ _ kv Ish) as (Wk & Ck & Lk & Uk).
  assert (last kv 0%Qc = ax_upper ax) as Ela. 
  { destruct (shape_kn p _ _ kv Ish) as (Q1 & _ & Q2 & _). rewrite last_nth. specialize (Q2 p (le_n p)). unfold kn in Q2.
    replace (length kv - p - 1 + p) with (length kv - 1) in Q2 by lia. rewrite <- Q2. apply nth_indep. lia. }
  assert (length kv = length l1 + (p + 1) + length l2) as Lkv. { rewrite D, !app_length, repeat_length. lia. }
  assert (exists q, q < ax_n (KnotAxis p kv) /\ Z.of_nat q = (Z.of_nat (length l1 + p) - Z.of_nat p - (if qltb (qabs (last kv 0 - x)%Qc) tol then 1 else 0))%Z /\
    forall i, i < ax_n (KnotAxis p kv) -> ax_fun (KnotAxis p kv) x i = if i =? q then 1%Qc else 0%Qc) as (q & Hq & Eq & Fq).
  { rewrite Ela. destruct (Qc_eq_dec (ax_upper ax) x) as [Ex|Nx].
    - exists (length l1 - 1). destruct l2 as [|y l2].
      2:{ exfalso. pose proof (sh_in _ _ _ _ Ish) as Fr. rewrite D, !Forall_app in Fr. destruct Fr as (_ & _ & Fr). destruct (Forall_inv Fr) as [_ Q].
          pose proof (Forall_inv F2) as Q2. cbn beta in Q2. rewrite Ex in Q. clear - Q Q2. qlra. }
      cbn [length] in Lkv. destruct Wk as (Lw & _). cbn [ax_n] in *. rewrite Ex. replace (x - x)%Qc with 0%Qc by ring.
      destruct (qltb_spec (qabs 0) tol) as [_|Q]; [|exfalso; apply Q; exact T].
      assert (1 <= length l1) as L1. { destruct (shape_kn p _ _ kv Ish) as (Q & _). lia. }
      split; [lia|]. split; [lia|]. intros i Hi. rewrite <- Ex, <- Uk, ax_fun_upper; auto.
      + cbn [ax_n]. replace (length kv - p - 1 - 1) with (length l1 - 1) by lia. reflexivity.
      + destruct (shape_wf p _ _ kv Ish) as (Q & _). exact Q.
    - exists (length l1). assert (x < ax_upper ax)%Qc as Xu by (apply Qcle_lt_or_eq in Dx2 as [Q|Q]; [auto|congruence]).
      assert (In (ax_upper ax) l2) as In2.
      { assert (In (ax_upper ax) kv) as In1 by (apply times_in; rewrite (sh_high _ _ _ _ Ish); lia). rewrite D, !in_app_iff in In1. destruct In1 as [Q|[Q|Q]]; auto; exfalso.
        - rewrite Forall_forall in F1. apply F1 in Q. clear - Q Xu. qlra.
        - apply repeat_spec in Q. auto. }
      assert (l2 <> []) as N2 by (intros ->; destruct In2). destruct l2 as [|y l2]; [easy|]. cbn [length] in Lkv.
      split; [cbn [ax_n]; lia|]. split.
      + assert (tol <= qabs (ax_upper ax - x))%Qc as Q. { destruct (Cl (ax_upper ax)) as [Q|Q]; auto; [rewrite D, !in_app_iff; auto|congruence]. }
        destruct (qltb_spec (qabs (ax_upper ax - x)%Qc) tol) as [Q2|_]; [exfalso; clear - Q Q2; qlra|lia].
      + intros i Hi. apply (slice_unit kv l1 (y :: l2)); auto. }
  pose proof Is as (_ & (Wc & _) & _). rewrite Ia in Wc. apply Forall_app in Wc as [Wc1 Wc2]. pose proof (Forall_inv Wc2) as Wc3. pose proof (Forall_inv_tail Wc2) as Wc4.
  rewrite Es in Kd, W. apply Forall_app in Kd as [Kd1 Kd2]. apply Forall_inv_tail in Kd2. apply Forall_app in W as [W1 W2]. apply Forall_inv_tail in W2.
  assert (length pre0 + S (length post0) = length (sp_axes s)) as Ls. { apply (f_equal (@length _)) in Es. rewrite app_length in Es. symmetry. exact Es. }
  assert (map ax_n (pre0 ++ post0) = map ax_n (pre ++ post)) as Enn.
  { rewrite Ep1, Ep2, !map_app, !map_map. f_equal; apply map_ext; intros; symmetry; apply with_knots_n. }
  destruct (cut_slice limit dim tol s c k p kv pre post Is Ia pre_len ltac:(rewrite Ikw; unfold c0; now rewrite Ew) x q (pre0 ++ post0) Hq) as (r & Er & Ear & Sr & Kr & V).
  { exists (length l1 + p). auto. }
  { intros H. apply (f_equal (@length _)) in H. rewrite app_length in H. cbn [length] in H. lia. }
  { apply Forall_app. auto. }
  { apply Forall_app. auto. }
  { rewrite Ep1, Ep2, !map_app, !map_map. f_equal; apply map_ext; now intros [|]. }
  { exact Enn. }
  { intros H. rewrite H in *. rewrite Ep1, Ep2. f_equal; symmetry; now apply (all_knots_id limit dim). }
  exists r. split; [rewrite (sub_spline_cut [x] c x E); auto|]. split; [exact Sr|]. split; [exact Kr|]. split; [exact Ear|].
  intros us d Dm Hd. unfold sp_domain in Dm. rewrite Ear in Dm. apply Forall2_app_inv_l in Dm as (v1 & v2 & D1 & D2 & ->).
  assert (length v1 = length pre0) as Lv1 by (symmetry; exact (Forall2_len _ _ _ D1)). assert (length v2 = length post0) as Lv2 by (symmetry; exact (Forall2_len _ _ _ D2)).
  assert (length pre0 = k) as Lk0. { unfold pre0. exact (firstn_len_nth _ _ _ Ek). }
  assert (length pre = length pre0 /\ length post = length post0) as [Lp Lq]. { rewrite Ep1, Ep2, !map_length. auto. }
  rewrite <- Lk0, <- Lv1, insert_at_app.
  assert (sp_domain c0 (v1 ++ x :: v2)) as Dc.
  { unfold sp_domain. rewrite c0_axes. apply Forall2_app; [rewrite Ep1; now apply (proj1 (domain_with_knots _ _))|]. constructor; [|rewrite Ep2; now apply (proj1 (domain_with_knots _ _))].
    apply (clamped_domain _ _ _ _ x Sh). split; auto. }
  rewrite <- c0_value, <- Iv by auto. apply V; [rewrite !app_length; lia|]. intros sigma f Hs.
  rewrite (functional_axes_ext _ (pre ++ post) _ (v1 ++ v2)); [|rewrite !app_length; lia|rewrite !app_length; lia|].
  - rewrite Ia. apply (functional_slice pre _ post v1 v2 x q); auto; try congruence. intros d1 d2 V1 V2. rewrite <- (Hs d1 d2 V1 V2). now rewrite Enn.
  - rewrite Ep1, Ep2, <- map_app. apply same_knots. rewrite !app_length. lia.
Qed.
End Part.
