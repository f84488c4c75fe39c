(** Bernstein polynomials as B-splines; splitting. *)
From Coq Require Import List Arith Lia ZArith QArith Qcanon Permutation Sorted.
From Verif Require Import Base BaseRadix BaseQc BaseSort S_Grid P_Grid S_Spline S_Value P_Basis P_Spline P_Value P_Reparam P_KnotGlobal
  S_Bezier M_Bezier.
Import ListNotations.
Local Open Scope nat_scope.

Lemma qpow_S x n : qpow x (S n) = (x * qpow x n)%Qc.
Proof. reflexivity. Qed.
Lemma bernstein_gt p i t : p < i -> bernstein p i t = 0%Qc.
Proof. intros H. unfold bernstein. rewrite binom_gt by auto. rewrite inj_0. ring. Qed.
Lemma bernstein_00 t : bernstein 0 0 t = 1%Qc.
Proof. unfold bernstein. cbn. rewrite inj_1. ring. Qed.
Lemma bernstein_S0 q t : bernstein (S q) 0 t = ((1 - t) * bernstein q 0 t)%Qc.
Proof. unfold bernstein. rewrite !binom_0, !Nat.sub_0_r, qpow_S. cbn [qpow]. ring. Qed.
Lemma bernstein_SS q m t : bernstein (S q) (S m) t = (t * bernstein q m t + (1 - t) * bernstein q (S m) t)%Qc.
Proof.
  unfold bernstein. cbn [binom Nat.sub]. rewrite inj_add, qpow_S.
  destruct (le_lt_dec (S m) q) as [H|H].
  - replace (q - m) with (S (q - S m)) by lia. rewrite qpow_S. ring.
  - rewrite (binom_gt q (S m)) by auto. rewrite inj_0. ring.
Qed.
Lemma bernstein_sum p t : qsum (map (fun i => bernstein p i t) (seq 0 (p + 1))) = 1%Qc.
Proof.
  induction p as [|q IH].
  - cbn [Nat.add seq map qsum]. rewrite bernstein_00. ring.
  - replace (S q + 1) with (S (q + 1)) by lia. rewrite qsum_seq_0.
    rewrite bernstein_S0.
    rewrite (qsum_ext _ (fun m => t * bernstein q m t + (1 - t) * bernstein q (S m) t)%Qc) by (intros; apply bernstein_SS).
    rewrite qsum_map_add, !qsum_map_mul_l, IH.
    assert (E : qsum (map (fun m => bernstein q (S m) t) (seq 0 (q + 1))) = (1 - bernstein q 0 t)%Qc).
    { replace (q + 1) with (S q) by lia. rewrite qsum_seq_S. rewrite (bernstein_gt q (S q)) by lia.
      rewrite <- IH. replace (q + 1) with (S q) by lia. rewrite qsum_seq_0. ring. }
    rewrite E. ring.
Qed.
Lemma qpow_nonneg x n : (0 <= x)%Qc -> (0 <= qpow x n)%Qc.
Proof. intros H. induction n; cbn; [qlra|]. now apply Qc_mul_nonneg. Qed.
Lemma bernstein_nonneg p i t : (0 <= t)%Qc -> (t <= 1)%Qc -> (0 <= bernstein p i t)%Qc.
Proof.
  intros. unfold bernstein. apply Qc_mul_nonneg; [apply Qc_mul_nonneg|]; auto using qpow_nonneg.
  - apply inj_nonneg.
  - apply qpow_nonneg. qlra.
Qed.

(** The knot vector 0^(p+1) 1^(p+1). *)
Section Clamped.
Variables (U : nat -> Qc) (s : nat).
Hypothesis U0 : forall k, k <= s -> U k = 0%Qc.
Hypothesis U1 : forall k, s < k -> U k = 1%Qc.
Lemma clamped_bernstein q i u : q <= s ->
  basis U s q i u = if (s - q <=? i) && (i <=? s) then bernstein q (i - (s - q)) u else 0%Qc.
Proof.
  revert i; induction q as [|q IH]; intros i Hq; cbn [basis].
  - destruct (Nat.eqb_spec i s) as [->|].
    + rewrite Nat.sub_0_r, Nat.leb_refl, Nat.sub_diag. cbn [andb]. now rewrite bernstein_00.
    + destruct (Nat.leb_spec (s - 0) i), (Nat.leb_spec i s); cbn; auto; lia.
  - rewrite !IH by lia.
    destruct (Nat.leb_spec (s - S q) i) as [H1|H1].
    2:{ destruct (Nat.leb_spec (s - q) i); [lia|]. destruct (Nat.leb_spec (s - q) (i + 1)); [lia|]. cbn [andb]. ring. }
    destruct (Nat.leb_spec i s) as [H2|H2].
    2:{ destruct (Nat.leb_spec (i + 1) s); [lia|]. rewrite !Bool.andb_false_r. ring. }
    cbn [andb].
    rewrite (U0 i) by lia. rewrite (U1 (i + q + 2)) by lia.
    destruct (Nat.leb_spec (s - q) i) as [H3|H3].
    + replace (i - (s - S q)) with (S (i - (s - q))) by lia.
      rewrite (U1 (i + S q)) by lia. cbn [andb].
      destruct (Nat.leb_spec (s - q) (i + 1)); [|lia]. cbn [andb].
      destruct (Nat.leb_spec (i + 1) s) as [H4|H4].
      * rewrite (U0 (i + 1)) by lia. rewrite bernstein_SS.
        replace (i + 1 - (s - q)) with (S (i - (s - q))) by lia. field. discriminate.
      * replace i with s by lia. rewrite bernstein_SS. replace (s - (s - q)) with q by lia.
        rewrite (bernstein_gt q (S q)) by lia. rewrite !Qcmult_0_r. field. discriminate.
    + replace (i - (s - S q)) with 0 by lia.
      destruct (Nat.leb_spec (s - q) (i + 1)); [|lia]. cbn [andb].
      destruct (Nat.leb_spec (i + 1) s) as [H4|H4]; [|lia].
      rewrite (U0 (i + 1)) by lia. rewrite bernstein_S0. replace (i + 1 - (s - q)) with 0 by lia.
      rewrite Qcmult_0_r. field. discriminate.
Qed.
End Clamped.

Lemma bezier_knots_kn p k : kn (bezier_knots p) k = if k <=? p then 0%Qc else 1%Qc.
Proof.
  assert (H : forall k, k < 2 * (p + 1) -> kn (bezier_knots p) k = if k <=? p then 0%Qc else 1%Qc).
  { intros j Hj. rewrite (kn_nth _ _ 0%Qc) by (unfold bezier_knots; rewrite app_length, !repeat_length; lia).
    unfold bezier_knots. destruct (Nat.leb_spec j p).
    - rewrite app_nth1 by (rewrite repeat_length; lia). apply nth_repeat.
    - rewrite app_nth2; rewrite repeat_length; [|lia].
      rewrite nth_indep with (d' := 1%Qc) by (rewrite repeat_length; lia). apply nth_repeat. }
  destruct (le_lt_dec (2 * (p + 1)) k) as [Hk|Hk]; [|auto].
  assert (L : length (bezier_knots p) = p + 1 + (p + 1))
    by (unfold bezier_knots; rewrite app_length, !repeat_length; lia).
  rewrite kn_past, L by lia. rewrite H by lia. destruct (Nat.leb_spec (p + 1 + (p + 1) - 1) p), (Nat.leb_spec k p); auto; lia.
Qed.
Lemma bezier_knots_n p : ax_n (KnotAxis p (bezier_knots p)) = p + 1.
Proof. cbn. unfold bezier_knots. rewrite app_length, !repeat_length. lia. Qed.
Lemma bezier_knots_wf p : ax_wf (KnotAxis p (bezier_knots p)).
Proof.
  unfold ax_wf. rewrite bezier_knots_n. repeat split.
  - unfold bezier_knots. rewrite app_length, !repeat_length. lia.
  - intros i j Hij Hj. rewrite <- !kn_nth by lia. rewrite !bezier_knots_kn.
    destruct (Nat.leb_spec i p), (Nat.leb_spec j p); try lia; qlra.
  - rewrite !bezier_knots_kn. rewrite Nat.leb_refl. destruct (Nat.leb_spec (p + 1) p); [lia|]. reflexivity.
Qed.
Lemma bezier_knots_fun p u i : i < p + 1 ->
  ax_fun (KnotAxis p (bezier_knots p)) u i = bernstein p i u.
Proof.
  intros Hi. unfold ax_fun. rewrite bezier_knots_n. unfold bspline_basis.
  assert (E : find_span (bezier_knots p) p (p + 1) u = p).
  { unfold find_span. replace (p + 1 - p) with 1 by lia. cbn [seq filter].
    destruct (_ && _)%bool; reflexivity. }
  rewrite E, clamped_bernstein; auto.
  - rewrite Nat.sub_diag, Nat.sub_0_r. cbn [Nat.leb andb]. destruct (Nat.leb_spec i p); [auto|lia].
  - intros k Hk. rewrite bezier_knots_kn. destruct (Nat.leb_spec k p); [auto|lia].
  - intros k Hk. rewrite bezier_knots_kn. destruct (Nat.leb_spec k p); [lia|auto].
Qed.

Lemma with_knots_n a : ax_n (with_knots a) = ax_n a.
Proof. destruct a; [apply bezier_knots_n|reflexivity]. Qed.
Lemma with_knots_domain a u : ax_domain (with_knots a) u <-> ax_domain a u.
Proof.
  destruct a as [p|p kv]; [|reflexivity]. cbn [with_knots]. unfold ax_domain, ax_lower, ax_upper.
  rewrite bezier_knots_n, !bezier_knots_kn, Nat.leb_refl. destruct (Nat.leb_spec (p + 1) p); [lia|reflexivity].
Qed.
Lemma with_knots_res s : sp_res (same_spline_with_knot_vectors s) = sp_res s.
Proof.
  unfold same_spline_with_knot_vectors. destruct (has_knot_vectors s); auto.
  unfold sp_res. cbn. rewrite map_map. apply map_ext. apply with_knots_n.
Qed.

Lemma same_spline_value s us d : length us = length (sp_axes s) ->
  sp_value (same_spline_with_knot_vectors s) us d = sp_value s us d.
Proof.
  intros L. unfold same_spline_with_knot_vectors. destruct (has_knot_vectors s); auto.
  destruct s as [axes cps w]; cbn [sp_axes sp_cps sp_weights] in *.
  apply value_axes_ext; rewrite ?map_length; auto.
  clear cps w. revert us L; induction axes as [|a axes IH]; intros [|u us] L; cbn in L; try lia.
  - constructor.
  - cbn [map combine]. constructor; [|apply IH; lia]. cbn [fst snd]. split; [apply with_knots_n|].
    rewrite with_knots_n. intros i Hi. destruct a; [|reflexivity]. now apply bezier_knots_fun.
Qed.
Lemma same_spline_wf s : sp_wf s -> sp_wf (same_spline_with_knot_vectors s).
Proof.
  intros (A & B & C). unfold sp_wf. rewrite with_knots_res.
  unfold same_spline_with_knot_vectors. destruct (has_knot_vectors s); [now repeat split|].
  cbn. repeat split; auto. apply Forall_map. eapply Forall_impl; [|exact A].
  intros [p|p kv] H; [apply bezier_knots_wf|exact H].
Qed.
Lemma same_spline_kind s : is_bezier s ->
  Forall (fun a => exists p kv, a = KnotAxis p kv) (sp_axes (same_spline_with_knot_vectors s)).
Proof.
  intros H. unfold same_spline_with_knot_vectors, is_bezier, has_knot_vectors in *.
  destruct (sp_axes s) as [|[p|p kv] r] eqn:E.
  - rewrite E. constructor.
  - cbn. constructor; [eauto|]. inversion_clear H as [|? ? _ H']. apply Forall_map.
    eapply Forall_impl; [|exact H']. intros ? [q ->]. cbn. eauto.
  - inversion_clear H as [|? ? [q Hq] _]. discriminate.
Qed.
Lemma same_spline_domain s us : sp_domain (same_spline_with_knot_vectors s) us <-> sp_domain s us.
Proof.
  unfold same_spline_with_knot_vectors. destruct (has_knot_vectors s); [reflexivity|].
  unfold sp_domain. cbn. generalize (sp_axes s) as axes. intros axes. revert us.
  induction axes as [|a axes IH]; intros us; split; intros H; inversion H; subst; cbn; constructor;
    try (now apply with_knots_domain); now apply IH.
Qed.

(** Unit weights. *)
Lemma ax_fun_sum a u : ax_wf a -> ax_domain a u -> qsum (map (ax_fun a u) (seq 0 (ax_n a))) = 1%Qc.
Proof.
  destruct a as [p|p kv]; intros W D.
  - apply bernstein_sum.
  - apply bspline_basis_sum; auto.
Qed.
Lemma functional_one axes us : Forall ax_wf axes -> Forall2 ax_domain axes us ->
  functional axes us (fun _ => 1%Qc) = 1%Qc.
Proof.
  intros W D. unfold functional. apply tensor_one.
  revert W; induction D; intros W; cbn; constructor; inversion_clear W; auto. cbn. now apply ax_fun_sum.
Qed.
Lemma unit_weights_value s us d : sp_wf s -> sp_domain s us -> sp_weights s = None ->
  sp_value (unit_weights s) us d = sp_value s us d.
Proof.
  intros (W & N & _) D E. rewrite !sp_value_functional, E. cbn [unit_weights sp_weights sp_axes sp_cps].
  pose proof (Forall2_len _ _ _ D) as L.
  rewrite (functional_ext _ _ (fun g => nth g (repeat 1%Qc (length (sp_cps s))) 0%Qc) (fun _ => 1%Qc)).
  - rewrite functional_one by auto.
    rewrite (functional_ext _ _ _ (fun g => nth d (nth g (sp_cps s) []) 0%Qc)); auto.
    + field. discriminate.
    + intros g Hg. rewrite <- fold_right_mul_prodn in Hg. unfold sp_res in N. rewrite <- N in Hg.
      rewrite nth_indep with (d' := 1%Qc) by (rewrite repeat_length; auto). rewrite nth_repeat. ring.
  - auto.
  - intros g Hg. rewrite <- fold_right_mul_prodn in Hg. unfold sp_res in N. rewrite <- N in Hg.
    rewrite nth_indep with (d' := 1%Qc) by (rewrite repeat_length; auto). apply nth_repeat.
Qed.

(** De Casteljau. *)
Lemma compose_left p j t x :
  qsum (map (fun i => bernstein p i t * bernstein i j x)%Qc (seq 0 (p + 1))) = bernstein p j (x * t)%Qc.
Proof.
  revert j; induction p as [|q IH]; intros j.
  - cbn [Nat.add seq map qsum]. rewrite bernstein_00. destruct j.
    + rewrite !bernstein_00. ring.
    + rewrite !bernstein_gt by lia. ring.
  - replace (S q + 1) with (S (q + 1)) by lia. rewrite qsum_seq_0, bernstein_S0.
    rewrite (qsum_ext _ (fun m => t * (bernstein q m t * bernstein (S m) j x) + (1 - t) * (bernstein q (S m) t * bernstein (S m) j x))%Qc)
      by (intros; rewrite bernstein_SS; ring).
    rewrite qsum_map_add, !qsum_map_mul_l.
    assert (E : qsum (map (fun m => bernstein q (S m) t * bernstein (S m) j x)%Qc (seq 0 (q + 1)))
                = (bernstein q j (x * t) - bernstein q 0 t * bernstein 0 j x)%Qc).
    { replace (q + 1) with (S q) by lia. rewrite qsum_seq_S. rewrite (bernstein_gt q (S q)) by lia.
      rewrite <- IH. replace (q + 1) with (S q) by lia. rewrite qsum_seq_0. ring. }
    rewrite E.
    destruct j as [|j].
    + rewrite (qsum_ext _ (fun m => (1 - x) * (bernstein q m t * bernstein m 0 x))%Qc)
        by (intros; rewrite bernstein_S0; ring).
      rewrite qsum_map_mul_l, IH. rewrite bernstein_S0, !bernstein_00. ring.
    + rewrite (qsum_ext _ (fun m => x * (bernstein q m t * bernstein m j x) + (1 - x) * (bernstein q m t * bernstein m (S j) x))%Qc)
        by (intros; rewrite bernstein_SS; ring).
      rewrite qsum_map_add, !qsum_map_mul_l, !IH. rewrite bernstein_SS, (bernstein_gt 0 (S j)) by lia. ring.
Qed.
Lemma qsum_rev_seq (f : nat -> Qc) n : qsum (map f (seq 0 n)) = qsum (map (fun i => f (n - 1 - i)) (seq 0 n)).
Proof.
  induction n; auto. rewrite qsum_seq_S, qsum_seq_0, IHn. rewrite Qcplus_comm. f_equal.
  - f_equal. lia.
  - apply qsum_ext. intros i _. f_equal. lia.
Qed.
Lemma compose_right p j t x : j <= p ->
  qsum (map (fun i => bernstein p i t * right_rows p x i j)%Qc (seq 0 (p + 1)))
  = bernstein p j (x + (1 - x) * t)%Qc.
Proof.
  intros Hj. rewrite qsum_rev_seq.
  rewrite bernstein_sym by auto.
  replace (1 - (x + (1 - x) * t))%Qc with ((1 - x) * (1 - t))%Qc by ring.
  rewrite <- compose_left. apply qsum_ext. intros i Hi. apply in_seq in Hi.
  replace (p + 1 - 1 - i) with (p - i) by lia.
  rewrite (bernstein_sym p (p - i)) by lia. replace (p - (p - i)) with i by lia. f_equal.
  unfold right_rows. destruct (Nat.leb_spec (p - i) j).
  - replace (p - (p - i)) with i by lia. rewrite (bernstein_sym i) by lia. f_equal. lia.
  - now rewrite bernstein_gt by lia.
Qed.
Lemma left_rows_sum p x i : i <= p -> qsum (map (left_rows x i) (seq 0 (p + 1))) = 1%Qc.
Proof.
  intros H. replace (p + 1) with ((i + 1) + (p - i)) by lia. rewrite seq_app, map_app, qsum_app.
  unfold left_rows. rewrite bernstein_sum, qsum_zero; [ring|].
  intros j Hj. apply in_seq in Hj. apply bernstein_gt. lia.
Qed.
Lemma right_rows_sum p x i : i <= p -> qsum (map (right_rows p x i) (seq 0 (p + 1))) = 1%Qc.
Proof.
  intros H. replace (p + 1) with (i + (p - i + 1)) by lia. rewrite seq_app, map_app, qsum_app.
  rewrite qsum_zero.
  - rewrite <- (bernstein_sum (p - i) x).
    replace (map (right_rows p x i) (seq (0 + i) (p - i + 1))) with (map (fun m => bernstein (p - i) m x) (seq 0 (p - i + 1))).
    { rewrite Qcplus_0_l. reflexivity. }
    replace (0 + i) with (i + 0) by lia. rewrite <- seq_shift_add, map_map. apply map_ext. intros m.
    unfold right_rows. destruct (Nat.leb_spec i (i + m)); [|lia]. f_equal. lia.
  - intros j Hj. apply in_seq in Hj. unfold right_rows. destruct (Nat.leb_spec i j); [lia|auto].
Qed.

(** One axis combined by a matrix. *)
Lemma set_nth_mid {A} (a : list A) x y b : set_nth (a ++ x :: b) (length a) y = a ++ y :: b.
Proof.
  unfold set_nth. rewrite firstn_app, Nat.sub_diag, firstn_all, firstn_O, app_nil_r.
  rewrite skipn_app, skipn_all, Nat.sub_diag. reflexivity.
Qed.
Lemma nth_mid {A} (a : list A) x b d : nth (length a) (a ++ x :: b) d = x.
Proof. rewrite app_nth2, Nat.sub_diag by lia. reflexivity. Qed.
Lemma set_nth_mid' {A} (a : list A) x y b k : length a = k -> set_nth (a ++ x :: b) k y = a ++ y :: b.
Proof. intros <-. apply set_nth_mid. Qed.
Lemma nth_mid' {A} (a : list A) x b d k : length a = k -> nth k (a ++ x :: b) d = x.
Proof. intros <-. apply nth_mid. Qed.
Lemma tensor_matrix pre n w w' post M c k : k = length pre ->
  (forall j, j < n -> qsum (map (fun i => w i * M i j)%Qc (seq 0 n)) = w' j) ->
  tensor (pre ++ (n, w) :: post)
    (fun ix => qsum (map (fun j => M (nth k ix 0%nat) j * c (set_nth ix k j))%Qc (seq 0 n))) =
  tensor (pre ++ (n, w') :: post) c.
Proof.
  intros -> H. rewrite !tensor_axis.
  set (T := fun j => tensor (pre ++ post) (fun ix => c (firstn (length pre) ix ++ j :: skipn (length pre) ix))).
  transitivity (qsum (map (fun i => qsum (map (fun j => w i * M i j * T j)%Qc (seq 0 n))) (seq 0 n))).
  - apply qsum_ext. intros i Hi. unfold T.
    rewrite (qsum_ext _ (fun j => w i * (M i j * tensor (pre ++ post) (fun ix => c (firstn (length pre) ix ++ j :: skipn (length pre) ix))))%Qc) by (intros; ring).
    rewrite qsum_map_mul_l. f_equal.
    rewrite (qsum_ext _ (fun j => tensor (pre ++ post) (fun ix => M i j * c (firstn (length pre) ix ++ j :: skipn (length pre) ix))%Qc)) by (intros; now rewrite tensor_mul_l).
    rewrite <- (tensor_qsum (pre ++ post) (seq 0 n) (fun j ix => M i j * c (firstn (length pre) ix ++ j :: skipn (length pre) ix))%Qc).
    apply tensor_ext_c. intros ix V. apply qsum_ext. intros j _.
    apply valid_length in V. rewrite map_length, app_length in V.
    assert (L : length (firstn (length pre) ix) = length pre) by (rewrite firstn_length; lia).
    rewrite nth_mid' by auto. rewrite set_nth_mid' by auto. reflexivity.
  - rewrite qsum_swap. apply qsum_ext. intros j Hj. apply in_seq in Hj. fold (T j).
    rewrite <- H by lia. now rewrite qsum_map_mul_r.
Qed.

Lemma indices_f res : indices res = f_indices res.
Proof.
  unfold indices, f_indices. rewrite fold_right_mul_prodn. apply map_ext. intros g.
  apply nth_ext with (d := 0) (d' := 0); rewrite map_length, seq_length, ?length_digits; auto.
  intros k Hk. rewrite nth_map_seq by auto. symmetry. now apply axis_position_digits.
Qed.
Lemma nth_indices {A} (F : list nat -> A) res ix d : valid_digits res ix ->
  nth (flat_id res ix) (map F (indices res)) d = F ix.
Proof.
  intros V. pose proof (undigits_lt _ _ V) as L. pose proof (valid_length _ _ V) as L'.
  rewrite flat_id_undigits by auto. rewrite indices_f. unfold f_indices. rewrite map_map.
  rewrite nth_map_seq by auto. now rewrite digits_undigits.
Qed.

Lemma qsum_convex_pos {A} (M f : A -> Qc) l :
  (forall a, In a l -> 0 <= M a)%Qc -> (forall a, In a l -> 0 < f a)%Qc ->
  (0 < qsum (map M l))%Qc -> (0 < qsum (map (fun a => M a * f a) l))%Qc.
Proof.
  intros HM Hf. 
  assert (G : (qsum (map M l) = 0 /\ qsum (map (fun a => M a * f a) l) = 0)%Qc \/ (0 < qsum (map (fun a => M a * f a) l))%Qc).
  { induction l as [|a l IH]; cbn; [now left|].
    assert (Ha := HM a (or_introl eq_refl)). assert (Fa := Hf a (or_introl eq_refl)).
    assert (0 <= M a * f a)%Qc by (apply Qc_mul_nonneg; qlra).
    destruct (Qc_eq_dec (M a) 0) as [E|E].
    - rewrite E in *. destruct IH as [[E1 E2]|E2]; try (intros; auto; apply HM || apply Hf; now right).
      + left. rewrite E1, E2. split; ring.
      + right. qlra.
    - assert (0 < M a * f a)%Qc.
      { apply Qcle_lt_or_eq in Ha. destruct Ha as [Ha|Ha]; [|congruence]. apply Qc_mul_pos; auto. }
      right. assert (0 <= qsum (map (fun a => M a * f a) l))%Qc; [|qlra].
      apply qsum_nonneg. intros b Hb. apply Qc_mul_nonneg; [apply HM; now right|]. apply Qclt_le_weak, Hf. now right. }
  intros P. destruct G as [[E _]|]; auto. rewrite E in P. exfalso. revert P. apply Qcle_not_lt. apply Qcle_refl.
Qed.

Lemma split_mid {A} (l : list A) k d : k < length l ->
  exists a b, l = a ++ nth k l d :: b /\ length a = k.
Proof. intros H. destruct (nth_split l d H) as (a & b & E & L). eauto. Qed.

Lemma apply_axis_tensor axes us k M v f :
  length us = length axes -> k < length axes ->
  let a := nth k axes (BezierAxis 0) in
  (forall j, j < ax_n a -> qsum (map (fun i => ax_fun a (nth k us 0%Qc) i * M i j)%Qc (seq 0 (ax_n a))) = ax_fun a v j) ->
  tensor (sp_basis axes us) (apply_axis (map ax_n axes) k M f) = tensor (sp_basis axes (set_nth us k v)) f.
Proof.
  intros L K a H.
  destruct (split_mid axes k (BezierAxis 0) K) as (pre & post & E & LP). fold a in E.
  destruct (split_mid us k 0%Qc ltac:(lia)) as (u1 & u2 & EU & LU). set (u := nth k us 0%Qc) in *.
  rewrite EU, set_nth_mid' by auto. rewrite E.
  assert (length u2 = length post).
  { apply (f_equal (@length _)) in E, EU. rewrite app_length in E, EU. cbn in E, EU. lia. }
  rewrite !sp_basis_app by lia.
  replace (sp_basis (a :: post) (u :: u2)) with ((ax_n a, ax_fun a u) :: sp_basis post u2) by reflexivity.
  replace (sp_basis (a :: post) (v :: u2)) with ((ax_n a, ax_fun a v) :: sp_basis post u2) by reflexivity.
  unfold apply_axis.
  replace (nth k (map ax_n (pre ++ a :: post)) 0) with (ax_n a).
  2:{ rewrite map_app. cbn [map]. rewrite nth_mid'; auto. now rewrite map_length. }
  apply tensor_matrix; auto. rewrite sp_basis_length; lia.
Qed.

Lemma net_past res cps d ix dim : Forall (fun P => length P = dim) cps -> dim <= d -> net res cps d ix = 0%Qc.
Proof.
  intros H Hd. unfold net. apply nth_overflow.
  destruct (le_lt_dec (length cps) (flat_id res ix)) as [G|G].
  - rewrite nth_overflow by auto. cbn. lia.
  - rewrite Forall_forall in H. rewrite (H (nth (flat_id res ix) cps [])); auto. now apply nth_In.
Qed.
Lemma apply_axis_zero res k M f ix : (forall i, f i = 0%Qc) -> apply_axis res k M f ix = 0%Qc.
Proof. intros H. unfold apply_axis. apply qsum_zero. intros. rewrite H. ring. Qed.
Lemma set_nth_valid res ix k j : valid_digits res ix -> j < nth k res 0 -> valid_digits res (set_nth ix k j).
Proof.
  intros V. revert k; induction V as [|r i res ix Hi V IH]; intros [|k] Hj; cbn in Hj; try lia.
  - unfold set_nth. cbn. constructor; auto.
  - change (set_nth (i :: ix) (S k) j) with (i :: set_nth ix k j). constructor; auto. now apply IH.
Qed.
Lemma net_map res F d ix dim : valid_digits res ix ->
  net res (map (fun ix => map (F ix) (seq 0 dim)) (indices res)) d ix =
  if d <? dim then F ix d else 0%Qc.
Proof.
  intros V. unfold net. rewrite nth_indices by auto.
  destruct (Nat.ltb_spec d dim).
  - now rewrite nth_map_seq.
  - apply nth_overflow. rewrite map_length, seq_length. auto.
Qed.
Lemma net_weight_pos s ws ix : sp_wf s -> sp_weights s = Some ws -> Forall (fun w => 0 < w)%Qc ws ->
  valid_digits (sp_res s) ix -> (0 < net_weight s ws ix)%Qc.
Proof.
  intros (_ & _ & W) E H V. rewrite E in W. unfold net_weight. rewrite Forall_forall in H. apply H, nth_In.
  rewrite W, fold_right_mul_prodn, flat_id_undigits by (now apply valid_length). now apply undigits_lt.
Qed.
Lemma nth_lt_valid res ix k : valid_digits res ix -> k < length res -> nth k ix 0 < nth k res 0.
Proof.
  intros V. revert k; induction V as [|r i res ix Hi V IH]; intros [|k] Hk; cbn in *; try lia. apply IH. lia.
Qed.

Lemma combine_axis_value s k dim M us v d :
  bezier_net k dim s -> length us = length (sp_axes s) ->
  let a := nth k (sp_axes s) (BezierAxis 0) in
  (forall j, j < ax_n a -> qsum (map (fun i => ax_fun a (nth k us 0%Qc) i * M i j)%Qc (seq 0 (ax_n a))) = ax_fun a v j) ->
  (forall i j, i < ax_n a -> j < ax_n a -> (0 <= M i j)%Qc) ->
  (forall i, i < ax_n a -> qsum (map (M i) (seq 0 (ax_n a))) = 1%Qc) ->
  bezier_net k dim (combine_axis k dim M s) /\
  sp_axes (combine_axis k dim M s) = sp_axes s /\
  sp_value (combine_axis k dim M s) us d = sp_value s (set_nth us k v) d.
Proof.
  intros (B & W & K & D & P) L a HM HN HS.
  assert (R : nth k (sp_res s) 0 = ax_n a).
  { unfold sp_res. rewrite nth_indep with (d' := ax_n (BezierAxis 0)) by (now rewrite map_length). apply map_nth. }
  assert (LI : length (indices (sp_res s)) = fold_right Nat.mul 1 (sp_res s))
    by (rewrite indices_f, length_f_indices; symmetry; apply fold_right_mul_prodn).
  assert (POS : forall ws ix, sp_weights s = Some ws -> valid_digits (sp_res s) ix ->
                  (0 < apply_axis (sp_res s) k M (net_weight s ws) ix)%Qc).
  { intros ws ix E V. unfold apply_axis. rewrite R.
    assert (Hi : nth k ix 0 < ax_n a).
    { rewrite <- R. apply nth_lt_valid; auto. unfold sp_res. now rewrite map_length. }
    apply qsum_convex_pos.
    - intros j Hj. apply in_seq in Hj. apply HN; auto; lia.
    - intros j Hj. apply in_seq in Hj. apply net_weight_pos; auto.
      + rewrite E in P. exact P.
      + apply set_nth_valid; auto. lia.
    - rewrite HS by auto. reflexivity. }
  destruct W as (W1 & W2 & W3).
  assert (NP : forall d ix, dim <= d -> net (sp_res s) (sp_cps s) d ix = 0%Qc)
    by (intros; eapply net_past; eauto).
  unfold combine_axis. destruct (sp_weights s) as [ws|] eqn:EW.
  - split; [|split; [reflexivity|]].
    + repeat split; cbn [sp_axes sp_cps sp_weights sp_res]; auto.
      * now rewrite map_length.
      * now rewrite map_length.
      * apply Forall_map, Forall_forall. intros ix _. now rewrite map_length, seq_length.
      * apply Forall_map, Forall_forall. intros ix Hi. rewrite indices_f in Hi. apply in_f_indices in Hi. now apply POS.
    + unfold sp_value at 1. cbn [sp_axes sp_cps sp_weights].
      match goal with |- (tensor _ (fun ix => (nth (flat_id ?r ix) _ _ * _)%Qc) / _ = _)%Qc => change r with (sp_res s) end.
      unfold sp_value. rewrite EW. f_equal.
      * rewrite <- (apply_axis_tensor (sp_axes s) us k M v) by auto.
        apply tensor_ext_c. rewrite sp_basis_fst by auto. fold (sp_res s). intros ix V.
        rewrite nth_indices by auto. rewrite net_map by auto.
        destruct (Nat.ltb_spec d dim) as [Hd|Hd].
        -- unfold net_weight at 2. specialize (POS ws ix eq_refl V). unfold net_weight in *. field. intros Z. rewrite Z in POS. discriminate.
        -- rewrite Qcmult_0_r. symmetry. apply apply_axis_zero. intros i. rewrite NP by auto. ring.
      * rewrite <- (apply_axis_tensor (sp_axes s) us k M v) by auto.
        apply tensor_ext_c. rewrite sp_basis_fst by auto. fold (sp_res s). intros ix V.
        now rewrite nth_indices by auto.
  - split; [|split; [reflexivity|]].
    + repeat split; cbn [sp_axes sp_cps sp_weights sp_res]; auto.
      * now rewrite map_length.
      * apply Forall_map, Forall_forall. intros ix _. now rewrite map_length, seq_length.
    + unfold sp_value. rewrite EW. cbn [sp_axes sp_cps sp_weights].
      rewrite <- (apply_axis_tensor (sp_axes s) us k M v) by auto.
      apply tensor_ext_c. rewrite sp_basis_fst by auto. fold (sp_res s). intros ix V.
      change (sp_res (Spl (sp_axes s) ?x ?y)) with (sp_res s).
      rewrite net_map by auto. destruct (Nat.ltb_spec d dim) as [Hd|Hd]; auto.
      rewrite apply_axis_zero; auto.
Qed.

Lemma casteljau_splits k dim : splits_values k (bezier_net k dim) (casteljau k dim).
Proof.
  intros s x Hs X0 X1. pose proof Hs as (B & W & K & _).
  assert (EA : exists p, nth k (sp_axes s) (BezierAxis 0) = BezierAxis p).
  { unfold is_bezier in B. rewrite Forall_forall in B. apply B. now apply nth_In. }
  destruct EA as [p EA]. unfold casteljau. rewrite EA. cbn [ax_degree fst snd].
  assert (HL : forall us d, length us = length (sp_axes s) ->
     bezier_net k dim (combine_axis k dim (left_rows x) s) /\
     sp_axes (combine_axis k dim (left_rows x) s) = sp_axes s /\
     sp_value (combine_axis k dim (left_rows x) s) us d = sp_value s (rescaled k 0 x us) d).
  { intros us d L. apply combine_axis_value; auto; rewrite EA; cbn [ax_n ax_fun].
    - intros j Hj. unfold left_rows. rewrite compose_left. f_equal. ring.
    - intros i j Hi Hj. now apply bernstein_nonneg.
    - intros i Hi. apply left_rows_sum. lia. }
  assert (HR : forall us d, length us = length (sp_axes s) ->
     bezier_net k dim (combine_axis k dim (right_rows p x) s) /\
     sp_axes (combine_axis k dim (right_rows p x) s) = sp_axes s /\
     sp_value (combine_axis k dim (right_rows p x) s) us d = sp_value s (rescaled k x 1 us) d).
  { intros us d L. apply combine_axis_value; auto; rewrite EA; cbn [ax_n ax_fun].
    - intros j Hj. rewrite compose_right by lia. reflexivity.
    - intros i j Hi Hj. unfold right_rows. destruct (i <=? j); [now apply bernstein_nonneg|apply Qcle_refl].
    - intros i Hi. apply right_rows_sum. lia. }
  pose (us0 := repeat 0%Qc (length (sp_axes s))).
  assert (L0 : length us0 = length (sp_axes s)) by apply repeat_length.
  split; [exact B|]. split; [apply (HL us0 0 L0)|]. split; [apply (HR us0 0 L0)|].
  split; split.
  - apply (HL us0 0 L0).
  - intros us d Hd. apply HL. apply Forall2_len in Hd. rewrite <- Hd. now rewrite (proj1 (proj2 (HL us0 0 L0))).
  - apply (HR us0 0 L0).
  - intros us d Hd. apply HR. apply Forall2_len in Hd. rewrite <- Hd. now rewrite (proj1 (proj2 (HR us0 0 L0))).
Qed.

(** The loop over the split positions. *)
Lemma is_bezier_domain axes us k u :
  Forall (fun a => exists p, a = BezierAxis p) axes -> Forall2 ax_domain axes us ->
  (0 <= u)%Qc -> (u <= 1)%Qc -> Forall2 ax_domain axes (set_nth us k u).
Proof.
  intros B D U0 U1. revert k; induction D as [|a x axes us Hd D IH]; intros k.
  - destruct k; constructor.
  - inversion B as [|? ? [p EP] B']; subst. destruct k.
    + constructor; auto. split; auto.
    + change (set_nth (x :: us) (S k) u) with (x :: set_nth us k u). constructor; auto.
Qed.
Lemma is_bezier_nth axes us k :
  Forall (fun a => exists p, a = BezierAxis p) axes -> Forall2 ax_domain axes us ->
  (0 <= nth k us 0)%Qc /\ (nth k us 0 <= 1)%Qc.
Proof.
  intros B D. revert k; induction D as [|a x axes us Hd D IH]; intros k.
  - destruct k; cbn; split; discriminate.
  - inversion B as [|? ? [p EP] B']; subst. destruct k; cbn; auto.
Qed.
Lemma set_nth_twice {A} (l : list A) k x y : set_nth (set_nth l k x) k y = set_nth l k y.
Proof.
  revert k; induction l as [|z l IH]; intros [|k]; auto.
  change (set_nth (z :: l) (S k) ?v) with (z :: set_nth l k v).
  repeat change (set_nth (z :: ?m) (S k) ?v) with (z :: set_nth m k v). f_equal. apply IH.
Qed.
Lemma set_nth_past {A} (l : list A) k x : length l <= k -> set_nth l k x = l.
Proof. intros H. unfold set_nth. rewrite skipn_all2, firstn_all2 by auto. apply app_nil_r. Qed.
Lemma rescaled_twice k a b x y us :
  rescaled k a b (rescaled k x y us) = rescaled k (a + (b - a) * x)%Qc (a + (b - a) * y)%Qc us.
Proof.
  unfold rescaled. rewrite set_nth_twice. destruct (le_lt_dec (length us) k) as [H|H].
  - now rewrite !set_nth_past by auto.
  - f_equal. rewrite set_nth_nth, Nat.eqb_refl by auto. ring.
Qed.
Lemma rescaled_domain k a b us s : is_bezier s -> sp_domain s us ->
  (0 <= a)%Qc -> (a <= b)%Qc -> (b <= 1)%Qc -> sp_domain s (rescaled k a b us).
Proof.
  intros B D A0 AB B1. destruct (is_bezier_nth _ _ k B D) as [U0 U1].
  apply is_bezier_domain; auto; qnra.
Qed.
Lemma is_part_trans k a b x y s r q :
  is_bezier s -> (0 <= x)%Qc -> (x <= y)%Qc -> (y <= 1)%Qc ->
  is_part k a b s r -> is_part k x y r q ->
  is_part k (a + (b - a) * x)%Qc (a + (b - a) * y)%Qc s q.
Proof.
  intros B X XY Y [E1 H1] [E2 H2]. split; [congruence|].
  intros us d D. rewrite H2 by auto. unfold sp_domain in *. rewrite E2 in D.
  rewrite H1; [now rewrite rescaled_twice|].
  apply rescaled_domain; auto. unfold is_bezier in *. now rewrite E1.
Qed.

Lemma intervals_cons a b l : intervals (a :: b :: l) = (a, b) :: intervals (b :: l).
Proof. reflexivity. Qed.

Section SplitLoop.
Variables (k : nat) (ok : spline -> Prop) (split1 : spline -> Qc -> spline * spline).
Hypothesis S1 : splits_values k ok split1.

Lemma split_loop_spec s locs prev rest :
  is_bezier s -> ok rest -> is_part k prev 1 s rest ->
  (0 <= prev)%Qc -> StronglySorted Qcle (prev :: locs) ->
  Forall (fun x => x <= 1)%Qc locs -> Forall (fun x => x < 1)%Qc (removelast (prev :: locs)) ->
  exists ps, split_loop split1 prev rest locs = Some ps /\
    Forall2 (fun ab p => is_part k (fst ab) (snd ab) s p) (intervals (prev :: locs ++ [1%Qc])) ps.
Proof.
  intros B. revert prev rest. induction locs as [|x locs IH]; intros prev rest OK PT P0 SS LE LT.
  - exists [rest]. split; auto. cbn. constructor; auto.
  - cbn [split_loop].
    assert (P1 : (prev < 1)%Qc) by (cbn [removelast] in LT; inversion_clear LT; auto).
    destruct (qeqb_spec prev 1) as [E|_]; [rewrite E in P1; discriminate|].
    inversion_clear SS as [|? ? SS' HP]. inversion_clear HP as [|? ? Hx _]. inversion_clear LE as [|? ? X1 LE'].
    set (y := ((x - prev) / (1 - prev))%Qc).
    assert (NZ : (1 - prev)%Qc <> 0%Qc) by (intros Z; assert (prev = 1)%Qc by (rewrite <- (Qcplus_0_l prev), <- Z; ring); subst; discriminate).
    assert (EY : (prev + (1 - prev) * y)%Qc = x) by (unfold y; field; auto).
    assert (Y0 : (0 <= y)%Qc) by (unfold y; apply Qc_le_div; qlra).
    assert (Y1 : (y <= 1)%Qc) by (unfold y; apply Qc_div_le; qlra).
    destruct (S1 rest y OK Y0 Y1) as (BR & OKL & OKR & PL & PR).
    destruct (split1 rest y) as [l r]. cbn [fst snd] in *.
    assert (PL' : is_part k prev x s l).
    { pose proof (is_part_trans k prev 1 0 y s rest l B ltac:(qlra) Y0 Y1 PT PL) as G.
      rewrite EY in G. replace (prev + (1 - prev) * 0)%Qc with prev in G by ring. exact G. }
    assert (PR' : is_part k x 1 s r).
    { pose proof (is_part_trans k prev 1 y 1 s rest r B Y0 Y1 ltac:(qlra) PT PR) as G.
      rewrite EY in G. replace (prev + (1 - prev) * 1)%Qc with 1%Qc in G by ring. exact G. }
    destruct (IH x r OKR PR' ltac:(qlra) SS' LE') as (ps & E & F).
    { cbn [removelast] in LT. now inversion_clear LT. }
    rewrite E. exists (l :: ps). split; auto.
    change (prev :: (x :: locs) ++ [1%Qc]) with (prev :: x :: (locs ++ [1%Qc])). rewrite intervals_cons.
    constructor; auto.
Qed.

Lemma existsb_out locs : existsb (fun x => qltb 1 x || qltb x 0)%bool locs = false <->
  Forall (fun x => 0 <= x /\ x <= 1)%Qc locs.
Proof.
  induction locs as [|x l IH]; cbn.
  - split; auto.
  - rewrite Bool.orb_false_iff, IH. rewrite Bool.orb_false_iff.
    destruct (qltb_spec 1 x), (qltb_spec x 0); split; try (intros [[? ?] ?]; discriminate);
      try (intros H; inversion_clear H as [|? ? [A B] _]; exfalso; qlra).
    + intros [_ H]. constructor; auto. split; qlra.
    + intros H. inversion_clear H. auto.
Qed.

Lemma split_spec s locs :
  ok s -> locs <> [] -> Forall (fun x => 0 <= x /\ x <= 1)%Qc locs ->
  Forall (fun x => x < 1)%Qc (removelast (qsort locs)) ->
  exists ps, split split1 s locs = SplitPieces ps /\
    Forall2 (fun ab p => is_part k (fst ab) (snd ab) s p) (intervals (0%Qc :: qsort locs ++ [1%Qc])) ps.
Proof.
  intros OK NE R LT. unfold split. destruct locs as [|x0 l0] eqn:EL; [easy|]. rewrite <- EL in *.
  rewrite (proj2 (existsb_out locs) R).
  assert (RS : Forall (fun x => 0 <= x /\ x <= 1)%Qc (qsort locs)).
  { rewrite Forall_forall in *. intros x Hx. apply R. eapply Permutation_in; [apply qsort_perm|auto]. }
  pose proof (qsort_sorted locs) as SS.
  destruct (qsort locs) as [|x l] eqn:E.
  { pose proof (Permutation_length (qsort_perm locs)) as P. rewrite E in P. subst locs. cbn in P. lia. }
  inversion_clear RS as [|? ? [X0 X1] RS'].
  destruct (S1 s x OK X0 X1) as (B & OKL & OKR & PL & PR).
  destruct (split1 s x) as [lft r]. cbn [fst snd] in *.
  destruct (split_loop_spec s l x r B OKR PR X0 SS) as (ps & E' & F).
  { eapply Forall_impl; [|exact RS']. now intros ? [_ ?]. }
  { exact LT. }
  rewrite E'. exists (lft :: ps). split; auto.
  change (0%Qc :: (x :: l) ++ [1%Qc]) with (0%Qc :: x :: (l ++ [1%Qc])). rewrite intervals_cons. constructor; auto.
Qed.
Lemma split_raises s locs : split split1 s locs = SplitRaises <->
  locs = [] \/ exists x, In x locs /\ (x < 0 \/ 1 < x)%Qc.
Proof.
  unfold split. destruct locs as [|x0 l0] eqn:EL; [split; auto|]. rewrite <- EL in *.
  destruct (existsb _ locs) eqn:EX.
  - split; auto. intros _. right. apply existsb_exists in EX. destruct EX as (x & Hx & H).
    exists x. split; auto. apply Bool.orb_true_iff in H. destruct (qltb_spec 1 x); [auto|]. destruct (qltb_spec x 0); auto. destruct H; discriminate.
  - split.
    + destruct (qsort locs); [discriminate|]. destruct (split1 s q). destruct (split_loop _ _ _ _); discriminate.
    + intros [E|(x & Hx & H)]; [subst; discriminate|]. apply existsb_out in EX. rewrite Forall_forall in EX. specialize (EX x Hx). exfalso. destruct H; qlra.
Qed.
End SplitLoop.
Lemma intervals_length l : length (intervals l) = length l - 1.
Proof. unfold intervals. rewrite combine_length. destruct l; [reflexivity|cbn [tl length]; lia]. Qed.

(** Repeating the end of the interval divides by zero. *)
Lemma split_end_twice (s : spline) split1 : split split1 s [1%Qc; 1%Qc] = SplitUndefined.
Proof.
  unfold split. cbn [existsb]. destruct (qltb_spec 1 1); [discriminate|]. destruct (qltb_spec 1 0); [discriminate|].
  cbn [orb]. replace (qsort [1%Qc; 1%Qc]) with [1%Qc; 1%Qc].
  - destruct (split1 s 1%Qc). cbn [split_loop]. destruct (qeqb_spec 1 1); congruence.
  - cbn. destruct (qleb_spec 1 1); auto.
Qed.

Lemma nth_error_intervals l i a b : nth_error l i = Some a -> nth_error l (i + 1) = Some b ->
  nth_error (intervals l) i = Some (a, b).
Proof.
  unfold intervals. revert i; induction l as [|x l IH]; intros i H1 H2; [destruct i; discriminate|].
  destruct i as [|i].
  - cbn in *. destruct l as [|y l]; [discriminate|]. cbn in *. congruence.
  - cbn [Nat.add nth_error] in *. destruct l as [|y l]; [destruct i; discriminate|].
    cbn [tl combine nth_error] in *. apply IH; auto.
Qed.
Lemma Forall2_nth_error {A B} (P : A -> B -> Prop) l m i a b :
  Forall2 P l m -> nth_error l i = Some a -> nth_error m i = Some b -> P a b.
Proof.
  intros H. revert i; induction H; intros [|i] H1 H2; cbn in *; try discriminate.
  - congruence.
  - eapply IHForall2; eauto.
Qed.
Lemma removelast_In {A} (l : list A) x : In x (removelast l) -> In x l.
Proof.
  induction l as [|y l IH]; cbn; auto. destruct l; [easy|]. intros [H|H]; auto.
Qed.
Lemma split_pieces k ok split1 : splits_values k ok split1 ->
  forall s locs, ok s -> locs <> [] -> Forall (fun x => 0 < x /\ x < 1)%Qc locs ->
  exists ps sorted, split split1 s locs = SplitPieces ps /\
    Permutation sorted locs /\ StronglySorted Qcle sorted /\
    length ps = length locs + 1 /\
    forall i a b p, nth_error (0%Qc :: sorted ++ [1%Qc]) i = Some a ->
      nth_error (0%Qc :: sorted ++ [1%Qc]) (i + 1) = Some b -> nth_error ps i = Some p ->
      is_part k a b s p.
Proof.
  intros S1 s locs OK NE R.
  destruct (split_spec k ok split1 S1 s locs OK NE) as (ps & E & F).
  - eapply Forall_impl; [|exact R]. intros x [A B]. split; now apply Qclt_le_weak.
  - apply Forall_forall. intros x Hx. apply removelast_In in Hx.
    rewrite Forall_forall in R. apply R. eapply Permutation_in; [apply qsort_perm|auto].
  - exists ps, (qsort locs). split; auto. split; [apply qsort_perm|]. split; [apply qsort_sorted|]. split.
    + apply Forall2_len in F. rewrite intervals_length in F. cbn [length] in F. rewrite app_length in F. cbn in F.
      rewrite (Permutation_length (qsort_perm locs)) in F. lia.
    + intros i a b p Ha Hb Hp.
      exact (Forall2_nth_error _ _ _ _ _ _ F (nth_error_intervals _ _ _ _ Ha Hb) Hp).
Qed.
Lemma count_one_removelast l x : StronglySorted Qcle l -> Forall (fun y => y <= 1)%Qc l ->
  count_occ Qc_eq_dec l 1%Qc <= 1 -> In x (removelast l) -> (x < 1)%Qc.
Proof.
  induction l as [|y l IH]; intros SS LE C H; [easy|].
  inversion_clear SS as [|? ? SS' HP]. inversion_clear LE as [|? ? Y1 LE'].
  cbn [removelast] in H. destruct l as [|z l]; [easy|].
  destruct H as [<-|H].
  - apply Qcle_lt_or_eq in Y1. destruct Y1 as [|E]; auto. exfalso. subst y.
    inversion_clear HP as [|? ? Hz _]. inversion_clear LE' as [|? ? Hz' _].
    assert (z = 1)%Qc by (now apply Qcle_antisym). subst z. cbn in C.
    destruct (Qc_eq_dec 1 1); [|congruence]. lia.
  - apply IH; auto. cbn [count_occ] in *. destruct (Qc_eq_dec y 1); lia.
Qed.
Lemma split_closed k ok split1 : splits_values k ok split1 ->
  forall s locs, ok s -> locs <> [] -> Forall (fun x => 0 <= x /\ x <= 1)%Qc locs ->
  count_occ Qc_eq_dec locs 1%Qc <= 1 ->
  exists ps, split split1 s locs = SplitPieces ps /\
    Forall2 (fun ab p => is_part k (fst ab) (snd ab) s p) (intervals (0%Qc :: qsort locs ++ [1%Qc])) ps.
Proof.
  intros S1 s locs OK NE R C. eapply split_spec; eauto.
  apply Forall_forall. intros x Hx. apply count_one_removelast in Hx; auto.
  - apply qsort_sorted.
  - apply Forall_forall. intros y Hy. rewrite Forall_forall in R. apply R. eapply Permutation_in; [apply qsort_perm|auto].
  - rewrite (proj1 (Permutation_count_occ Qc_eq_dec _ _) (qsort_perm locs)). exact C.
Qed.
Lemma split_end_undefined :
  exists locs, Forall (fun x => 0 <= x /\ x <= 1)%Qc locs /\
    forall (s : spline) split1, split split1 s locs = SplitUndefined.
Proof.
  exists [1; 1]%Qc. split; [repeat constructor; discriminate|]. intros. apply split_end_twice.
Qed.
Lemma bezier_to_bspline_knots s : is_bezier s ->
  Forall2 (fun a a' => a' = KnotAxis (ax_degree a) (repeat 0%Qc (ax_degree a + 1) ++ repeat 1%Qc (ax_degree a + 1)))
    (sp_axes s) (sp_axes (bezier_to_bspline s)) /\
  sp_cps (bezier_to_bspline s) = sp_cps s /\ sp_weights (bezier_to_bspline s) = sp_weights s.
Proof.
  intros B. unfold bezier_to_bspline, same_spline_with_knot_vectors, has_knot_vectors.
  assert (G : Forall2 (fun a a' => a' = KnotAxis (ax_degree a) (repeat 0%Qc (ax_degree a + 1) ++ repeat 1%Qc (ax_degree a + 1)))
    (sp_axes s) (map with_knots (sp_axes s))).
  { unfold is_bezier in B. induction B as [|a l [p ->] B IH]; cbn; constructor; auto. }
  unfold is_bezier in B. destruct (sp_axes s) as [|[p|p kv] r] eqn:E.
  - rewrite E. auto.
  - auto.
  - inversion B as [|? ? [p' X] _]. discriminate.
Qed.
Lemma bezier_knots_basis p u i : i <= p ->
  bspline_basis (repeat 0%Qc (p + 1) ++ repeat 1%Qc (p + 1)) p (p + 1) u i = bernstein p i u.
Proof.
  intros H. rewrite <- (bezier_knots_fun p u i) by lia. unfold ax_fun. rewrite bezier_knots_n. reflexivity.
Qed.
Lemma bezier_to_bspline_value s us d : is_bezier s -> sp_domain s us ->
  sp_domain (bezier_to_bspline s) us /\ sp_value (bezier_to_bspline s) us d = sp_value s us d.
Proof.
  intros _ D. split; [now apply same_spline_domain|]. apply same_spline_value. symmetry. exact (Forall2_len _ _ _ D).
Qed.
Lemma bezier_to_nurbs_value s us d : is_bezier s -> sp_wf s -> sp_weights s = None -> sp_domain s us ->
  sp_wf (bezier_to_nurbs s) /\ sp_domain (bezier_to_nurbs s) us /\
  sp_value (bezier_to_nurbs s) us d = sp_value s us d.
Proof.
  intros B W E D. unfold bezier_to_nurbs. split; [|split].
  - apply same_spline_wf. destruct W as (A & N & _). repeat split; auto. cbn. now rewrite repeat_length.
  - apply same_spline_domain. exact D.
  - rewrite same_spline_value by (symmetry; exact (Forall2_len _ _ _ D)). now apply unit_weights_value.
Qed.
