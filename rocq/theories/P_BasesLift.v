(** A degree elevation that meets the contract of [elevates_spans]. *)
From Coq Require Import List Arith ZArith Bool QArith Qcanon Lia.
From Verif Require Import Base BaseRadix BaseQc S_Grid S_Spline S_Value P_Grid P_Spline P_Value M_Core S_Core S_Files S_Bezier M_Bezier P_Bezier M_Create S_Create S_SubSpline P_SubSpline P_SubCut P_SubFinal P_SubRounds S_Bases P_BasesView.
Import ListNotations.
Local Open Scope list_scope.
Local Open Scope nat_scope.

Lemma binom_low p : forall j, (p + 1) * binom p j = (p + 1 - j) * binom (S p) j.
Proof.
  induction p as [|p IH]; intros [|j].
  - reflexivity.
  - cbn [binom]. destruct j; reflexivity.
  - rewrite !binom_0. lia.
  - change (binom (S (S p)) (S j)) with (binom (S p) j + binom (S p) (S j)).
    pose proof (IH j) as H1. pose proof (IH (S j)) as H2. change (binom (S p) (S j)) with (binom p j + binom p (S j)) in *.
    destruct (Nat.le_gt_cases j p) as [L|G].
    + replace (S p + 1 - S j) with (p + 1 - j) by lia. replace (p + 1 - S j) with (p - j) in H2 by lia. replace (p + 1 - j) with (p - j + 1) in * by lia. nia.
    + rewrite (binom_gt p (S j)), (binom_gt p j) by lia. replace (S p + 1 - S j) with 0 by lia. lia.
Qed.
Lemma binom_high p j : (p + 1) * binom p j = (j + 1) * binom (S p) (S j).
Proof. pose proof (binom_low p j) as H1. pose proof (binom_low p (S j)) as H2. change (binom (S p) (S j)) with (binom p j + binom p (S j)) in *.
  destruct (Nat.le_gt_cases j p) as [L|G].
  - replace (p + 1 - S j) with (p - j) in H2 by lia. assert (p + 1 = p - j + j + 1) as E by lia. rewrite E in H2 |- *. nia.
  - rewrite (binom_gt p j), (binom_gt p (S j)) by lia. lia.
Qed.

(** Row [i] of the elevation of degree [p] by one. *)
Definition lift_coef (p i j : nat) : Qc :=
  if j =? i then (1 - inj i / inj (p + 1))%Qc else if S j =? i then (inj i / inj (p + 1))%Qc else 0%Qc.
Lemma lift_bernstein p j t : j < p + 1 ->
  qsum (map (fun i => bernstein (p + 1) i t * lift_coef p i j)%Qc (seq 0 (p + 2))) = bernstein p j t.
Proof.
  intros Hj. replace (p + 2) with (j + (2 + (p - j))) by lia. rewrite !seq_app, !map_app, !qsum_app. cbn [Nat.add seq map qsum fold_right].
  assert (inj (p + 1) <> 0)%Qc as NZ. { intros E. pose proof (BaseQc.inj_pos (p + 1) ltac:(lia)) as P. rewrite E in P. discriminate. }
  rewrite (qsum_zero _ (seq 0 j)), (qsum_zero _ (seq (j + 2) (p - j))).
  - unfold lift_coef. rewrite Nat.eqb_refl. destruct (Nat.eqb_spec j (S j)); [lia|]. rewrite Nat.eqb_refl.
    unfold bernstein. rewrite !Nat.add_1_r. replace (S p - j) with (S (p - j)) by lia. replace (S p - S j) with (p - j) by lia. rewrite qpow_S. cbn [qpow].
    assert (inj (p + 1) * inj (binom p j) = (inj (p + 1) - inj j) * inj (binom (S p) j))%Qc as A.
    { rewrite <- !inj_mul, binom_low, !inj_mul. f_equal. replace (p + 1) with (p + 1 - j + j) at 2 by lia. rewrite inj_add. ring. }
    assert (inj (p + 1) * inj (binom p j) = inj (S j) * inj (binom (S p) (S j)))%Qc as B.
    { rewrite <- !inj_mul, binom_high. f_equal. f_equal. lia. }
    rewrite Nat.add_1_r in *.
    assert (inj (binom p j) = (1 - inj j / inj (S p)) * inj (binom (S p) j))%Qc as A'.
    { apply (f_equal (fun x => / inj (S p) * x)%Qc) in A. replace (inj (binom p j)) with (/ inj (S p) * (inj (S p) * inj (binom p j)))%Qc by (field; auto). rewrite A. field. auto. }
    assert (inj (binom p j) = inj (S j) / inj (S p) * inj (binom (S p) (S j)))%Qc as B'.
    { apply (f_equal (fun x => / inj (S p) * x)%Qc) in B. replace (inj (binom p j)) with (/ inj (S p) * (inj (S p) * inj (binom p j)))%Qc by (field; auto). rewrite B. field. auto. }
    set (u := (1 - inj j / inj (S p))%Qc) in *. set (v := (inj (S j) / inj (S p))%Qc) in *. clearbody u v.
    transitivity ((1 - t) * (u * inj (binom (S p) j)) * qpow t j * qpow (1 - t) (p - j) + t * (v * inj (binom (S p) (S j))) * qpow t j * qpow (1 - t) (p - j))%Qc; [ring|].
    rewrite <- A', <- B'. ring.
  - intros i Hi. apply in_seq in Hi. unfold lift_coef. destruct (Nat.eqb_spec j i); [lia|]. destruct (Nat.eqb_spec (S j) i); [lia|]. ring.
  - intros i Hi. apply in_seq in Hi. unfold lift_coef. destruct (Nat.eqb_spec j i); [lia|]. destruct (Nat.eqb_spec (S j) i); [lia|]. ring.
Qed.

Lemma tensor_lift pre n m w w' post M c k : k = length pre ->
  (forall j, j < m -> qsum (map (fun i => w i * M i j)%Qc (seq 0 n)) = w' j) ->
  tensor (pre ++ (n, w) :: post)
    (fun ix => qsum (map (fun j => M (nth k ix 0%nat) j * c (set_nth ix k j))%Qc (seq 0 m))) =
  tensor (pre ++ (m, w') :: post) c.
Proof.
  intros -> H. rewrite !tensor_axis.
  set (T := fun j => tensor (pre ++ post) (fun ix => c (firstn (length pre) ix ++ j :: skipn (length pre) ix))).
  transitivity (qsum (map (fun i => qsum (map (fun j => w i * M i j * T j)%Qc (seq 0 m))) (seq 0 n))).
  - apply qsum_ext. intros i Hi. unfold T.
    rewrite (qsum_ext _ (fun j => w i * (M i j * tensor (pre ++ post) (fun ix => c (firstn (length pre) ix ++ j :: skipn (length pre) ix))))%Qc) by (intros; ring).
    rewrite qsum_map_mul_l. f_equal.
    rewrite (qsum_ext _ (fun j => tensor (pre ++ post) (fun ix => M i j * c (firstn (length pre) ix ++ j :: skipn (length pre) ix))%Qc)) by (intros; now rewrite tensor_mul_l).
    rewrite <- (tensor_qsum (pre ++ post) (seq 0 m) (fun j ix => M i j * c (firstn (length pre) ix ++ j :: skipn (length pre) ix))%Qc).
    apply tensor_ext_c. intros ix V. apply qsum_ext. intros j _.
    apply BaseRadix.valid_length in V. rewrite map_length, app_length in V.
    assert (L : length (firstn (length pre) ix) = length pre) by (rewrite firstn_length; lia).
    rewrite nth_mid' by auto. rewrite set_nth_mid' by auto. reflexivity.
  - rewrite qsum_swap. apply qsum_ext. intros j Hj. apply in_seq in Hj. fold (T j).
    rewrite <- H by lia. now rewrite qsum_map_mul_r.
Qed.

(** One degree more on axis [k]. *)
Definition lift_axes (s : spline) (k : nat) : list paxis :=
  firstn k (sp_axes s) ++ elevated_axis 1 (nth k (sp_axes s) (BezierAxis 0)) :: skipn (S k) (sp_axes s).
Definition lift_one (s : spline) (k : nat) : spline :=
  let p := ax_degree (nth k (sp_axes s) (BezierAxis 0)) in
  Spl (lift_axes s k)
    (map (fun ix => map (fun d => qsum (map (fun j => lift_coef p (nth k ix 0%nat) j * net (sp_res s) (sp_cps s) d (set_nth ix k j))%Qc (seq 0 (p + 1))))
                        (seq 0 (dim_of (sp_cps s)))) (indices (map ax_n (lift_axes s k))))
    (sp_weights s).
Fixpoint lift (s : spline) (k m : nat) : spline :=
  match m with 0 => s | S m => lift_one (lift s k m) k end.

Lemma span_fun a u i : one_span a -> i < ax_degree a + 1 -> ax_n a = ax_degree a + 1 /\ ax_fun a u i = bernstein (ax_degree a) i ((u - ax_lower a) / (ax_upper a - ax_lower a))%Qc.
Proof.
  destruct a as [p|p kv]; intros O Hi; cbn [ax_degree] in *.
  - split; [reflexivity|]. cbn [ax_lower ax_upper ax_fun]. f_equal. field. discriminate.
  - destruct O as (LU & E). set (x := ax_lower (KnotAxis p kv)) in *. set (y := ax_upper (KnotAxis p kv)) in *. clearbody x y. subst kv. split.
    + unfold ax_n. rewrite app_length, !repeat_length. lia.
    + apply (two_knots_fun (y - x)%Qc (BezierAxis p)); auto; clear - LU; qlra.
Qed.
Lemma span_degree m a : ax_degree (elevated_axis m a) = ax_degree a + m.
Proof. now destruct a. Qed.
Lemma elevated_S m a : one_span a -> elevated_axis 1 (elevated_axis m a) = elevated_axis (S m) a.
Proof.
  destruct a as [p|p kv]; intros O; cbn [elevated_axis]; [f_equal; lia|].
  destruct (elevated_span m (KnotAxis p kv) O) as (_ & L & U). cbn [elevated_axis] in L, U. rewrite L, U. replace (p + m + 1) with (p + S m) by lia. reflexivity.
Qed.
Lemma net_in res cps d ix : net res cps d ix = nth d (nth (flat_id res ix) cps []) 0%Qc.
Proof. reflexivity. Qed.

Lemma lift_one_ok limit dim s k a : sound limit dim s -> sp_weights s = None -> nth_error (sp_axes s) k = Some a -> one_span a ->
  sp_axes (lift_one s k) = firstn k (sp_axes s) ++ elevated_axis 1 a :: skipn (S k) (sp_axes s) /\
  sound limit dim (lift_one s k) /\ sp_weights (lift_one s k) = None /\
  forall us d, sp_domain s us -> d < dim -> sp_value (lift_one s k) us d = sp_value s us d.
Proof.
  intros So W0 Ea O. pose proof So as (St & W & Fr & _). destruct (kinds limit dim s St Fr) as (Kd & Ll & Na).
  assert (nth k (sp_axes s) (BezierAxis 0) = a) as En by (apply nth_error_nth; auto).
  assert (lift_axes s k = firstn k (sp_axes s) ++ elevated_axis 1 a :: skipn (S k) (sp_axes s)) as EA by (unfold lift_axes; now rewrite En).
  set (pre := firstn k (sp_axes s)) in *. set (post := skipn (S k) (sp_axes s)) in *.
  assert (sp_axes s = pre ++ a :: post) as Es by (apply split_nth; auto).
  assert (length pre = k) as Lp by (eapply firstn_len_nth; eauto).
  destruct (elevated_span 1 a O) as (O' & Lo & Up).
  assert (ax_wf a /\ of_kind (has_kvs s) limit dim a) as [Wa Ka].
  { destruct W as (FW & _). rewrite Forall_forall in FW, Kd. apply nth_error_In in Ea. auto. }
  assert (ax_wf (elevated_axis 1 a) /\ of_kind (has_kvs s) limit dim (elevated_axis 1 a)) as [Wa' Ka'].
  { destruct a as [p|p kv]; [cbn; auto|]. destruct O as (LU & E). cbn [elevated_axis] in *. set (x := ax_lower (KnotAxis p kv)) in *. set (y := ax_upper (KnotAxis p kv)) in *.
    assert (In x kv) as Ix. { rewrite E. apply in_or_app. left. rewrite Nat.add_1_r. now left. }
    assert (In y kv) as Iy. { rewrite E. apply in_or_app. right. rewrite Nat.add_1_r. now left. }
    clearbody x y. destruct (shape_wf _ _ _ _ (two_shape (p + 1) x y LU)) as (Wn & _).
    split; [exact Wn|]. destruct Ka as (K1 & K2 & K3). cbn [of_kind]. split; [auto|]. split.
    - split; [lia|]. split; [apply Wn|]. rewrite app_length, !repeat_length. lia.
    - rewrite Forall_forall in K3. apply Forall_app. split; apply Forall_forall; intros z Hz; apply repeat_spec in Hz; subst z; auto. }
  assert (has_kvs (lift_one s k) = has_kvs s) as Hk.
  { unfold has_kvs. change (sp_axes (lift_one s k)) with (lift_axes s k). rewrite EA, Es. destruct pre as [|b l]; [|reflexivity]. cbn [app]. now destruct a. }
  assert (dim_of (sp_cps s) = dim) as Ed by now apply (P_Create.dims_eq limit).
  assert (Forall ax_wf (lift_axes s k)) as FW'.
  { destruct W as (FW & _). rewrite Es in FW. rewrite EA. apply Forall_app in FW as [F1 F2]. inversion F2. apply Forall_app. split; auto. }
  assert (length (sp_cps (lift_one s k)) = prodn (map ax_n (lift_axes s k))) as Lc.
  { cbn [lift_one sp_cps]. rewrite map_length. unfold indices. now rewrite map_length, seq_length, fold_right_mul_prodn. }
  assert (Forall (fun P => length P = dim) (sp_cps (lift_one s k))) as Fc.
  { cbn [lift_one sp_cps]. apply Forall_map, Forall_forall. intros ix _. rewrite map_length, seq_length. exact Ed. }
  split; [exact EA|]. split; [|split; [exact W0|]].
  - split; [|split; [|split; [exact Fc|cbn [lift_one sp_weights]; now rewrite W0]]].
    + destruct (build limit dim (lift_one s k) (lift_axes s k) (sp_cps (lift_one s k)) None) as [_ B]; auto; try easy.
      * rewrite EA. intros X. apply app_eq_nil in X as [_ X]. discriminate.
      * rewrite EA. rewrite Es in Ll. rewrite app_length in *. exact Ll.
      * exact (P_Create.dim_pos limit dim s St Fr).
      * rewrite Hk, EA. rewrite Es in Kd. apply Forall_app in Kd as [F1 F2]. inversion F2. apply Forall_app. split; auto.
      * unfold lift_one in *. cbn [sp_cps] in B. now rewrite W0.
    + split; [exact FW'|]. split; [|cbn [lift_one sp_weights]; now rewrite W0]. unfold sp_res. rewrite fold_right_mul_prodn. exact Lc.
  - intros us d D Hd. unfold sp_value. change (sp_weights (lift_one s k)) with (sp_weights s). rewrite W0. change (sp_axes (lift_one s k)) with (lift_axes s k).
    unfold sp_domain in D. rewrite Es in D. apply Forall2_app_inv_l in D as (u1 & u2 & D1 & D2 & ->). inversion D2 as [|? u ? u3 Du D3 X1 X2]. rewrite <- X2 in *. clear X1 X2 u2.
    pose proof (Forall2_len _ _ _ D1) as L1.
    rewrite (tensor_ext_c (sp_basis (lift_axes s k) (u1 ++ u :: u3)) _
      (fun ix => qsum (map (fun j => lift_coef (ax_degree a) (nth k ix 0%nat) j * net (sp_res s) (sp_cps s) d (set_nth ix k j))%Qc (seq 0 (ax_degree a + 1))))).
    + rewrite EA, Es. rewrite !sp_basis_app by auto. change (sp_basis (elevated_axis 1 a :: post) (u :: u3)) with ((ax_n (elevated_axis 1 a), ax_fun (elevated_axis 1 a) u) :: sp_basis post u3).
      change (sp_basis (a :: post) (u :: u3)) with ((ax_n a, ax_fun a u) :: sp_basis post u3).
      replace (ax_n a) with (ax_degree a + 1) by (symmetry; apply (span_fun a u 0 O); lia).
      apply tensor_lift.
      * unfold sp_basis. rewrite map_length, combine_length. lia.
      * intros j Hj. rewrite (proj2 (span_fun a u j O Hj)). pose proof (span_degree 1 a) as Dg.
        replace (ax_n (elevated_axis 1 a)) with (ax_degree a + 2) by (symmetry; rewrite (proj1 (span_fun (elevated_axis 1 a) u 0 O' ltac:(lia))), Dg; lia).
        rewrite <- lift_bernstein by auto. apply qsum_ext. intros i Hi. apply in_seq in Hi. f_equal.
        rewrite (proj2 (span_fun (elevated_axis 1 a) u i O' ltac:(lia))). now rewrite Dg, Lo, Up.
    + intros ix V. rewrite net_in. unfold sp_res at 1. change (sp_axes (lift_one s k)) with (lift_axes s k). cbn [lift_one sp_cps].
      rewrite En, Ed. rewrite nth_indices.
      * rewrite nth_image by auto. reflexivity.
      * unfold sp_basis in V. rewrite map_map in V. cbn [fst] in V.
        replace (map ax_n (lift_axes s k)) with (map (fun x => ax_n (fst x)) (combine (lift_axes s k) (u1 ++ u :: u3))); [exact V|].
        rewrite <- (map_map fst ax_n). f_equal. rewrite EA. apply Forall2_len in D3. clear - L1 D3. revert u1 L1. induction pre as [|b l IH]; intros [|w u1] L; cbn in L; try lia; cbn [app combine map fst]; f_equal; auto.
        clear L. revert u3 D3. induction post as [|b l IH]; intros [|w u1] L; cbn in *; try lia; f_equal; auto.
Qed.

Lemma lift_elevates : elevates_spans lift.
Proof.
  intros limit dim s k a m So W Ea O. induction m as [|m (A1 & A2 & A3 & A4)]; cbn [lift].
  - rewrite elevated_0 by auto. split; [now apply split_nth|auto].
  - assert (nth_error (sp_axes (lift s k m)) k = Some (elevated_axis m a)) as En.
    { rewrite A1, (nth_error_replaced _ _ _ _ _ Ea). now rewrite Nat.eqb_refl. }
    destruct (elevated_span m a O) as (Om & Lo & Up).
    destruct (lift_one_ok limit dim (lift s k m) k (elevated_axis m a) A2 A3 En Om) as (B1 & B2 & B3 & B4).
    pose proof (firstn_len_nth _ _ _ Ea) as Lk.
    split; [|split; [auto|split; [auto|]]].
    + rewrite B1, A1, elevated_S by auto. f_equal.
      * rewrite firstn_app, Lk, Nat.sub_diag, firstn_O, app_nil_r. apply firstn_all2. lia.
      * f_equal. rewrite skipn_app, Lk. replace (S k - k) with 1 by lia. rewrite skipn_all2 by lia. reflexivity.
    + intros us d D Hd. rewrite B4; auto. unfold sp_domain in *. rewrite A1. rewrite (split_nth _ _ _ Ea) in D. revert D. apply P_View.domain_same; auto.
Qed.
