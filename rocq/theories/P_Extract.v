(** Boundary extraction. *)
From Coq Require Import List Arith Lia ZArith QArith Qcanon Permutation.
From Verif Require Import Base BaseRadix BaseQc S_Grid M_Grid P_Grid S_Spline S_Value P_Spline P_Value
  M_Extract.
Import ListNotations.
Local Open Scope nat_scope.

Lemma pick_reindexed {A} (l : list A) ids :
  (forall i, In i ids -> i < length l) ->
  exists l', pick l ids = Some l' /\ reindexed (length ids) (fun g => nth g ids 0) l l'.
Proof.
  unfold pick. induction ids as [|i ids IH]; intros H.
  - exists []. repeat split. cbn. lia.
  - destruct IH as (l' & E & L & N). { intros; apply H; now right. }
    destruct (nth_error l i) as [x|] eqn:Ei.
    2:{ apply nth_error_None in Ei. specialize (H i ltac:(now left)). lia. }
    exists (x :: l'). cbn [map all_some]. rewrite Ei, E. split; auto. split; [cbn; lia|].
    intros [|g] Hg; cbn in *; auto. apply N. lia.
Qed.

Lemma remove_at_app {A} (a : list A) x b : remove_at (length a) (a ++ x :: b) = a ++ b.
Proof.
  unfold remove_at. rewrite firstn_app, Nat.sub_diag, firstn_all, firstn_O, app_nil_r. f_equal.
  rewrite skipn_app, skipn_all2 by lia.
  replace (S (length a) - length a) with 1 by lia. reflexivity.
Qed.
Lemma insert_at_app {A} (a : list A) x b : insert_at (length a) x (a ++ b) = a ++ x :: b.
Proof.
  unfold insert_at. rewrite firstn_app, Nat.sub_diag, firstn_all, firstn_O, app_nil_r. f_equal.
  rewrite skipn_app, skipn_all, Nat.sub_diag. reflexivity.
Qed.

Lemma length_ids_on_plane a r b plane :
  length (ids_on_hyper_plane (a ++ r :: b) (length a) plane) = prodn (a ++ b).
Proof.
  unfold ids_on_hyper_plane. rewrite map_length, seq_length.
  assert (G : forall l i axis, axis < i -> n_on_plane l axis i = prodn l).
  { induction l; intros i axis H; cbn; auto. destruct (Nat.eqb_spec i axis); [lia|].
    rewrite IHl by lia. reflexivity. }
  assert (G2 : forall a i, n_on_plane (a ++ r :: b) (i + length a) i = prodn (a ++ b)).
  { clear a. induction a; intros i; cbn [app n_on_plane length].
    - destruct (Nat.eqb_spec i (i + 0)); [|lia]. apply G. lia.
    - destruct (Nat.eqb_spec i (i + S (length a0))); [lia|].
      replace (i + S (length a0)) with (S i + length a0) by lia. rewrite IHa. reflexivity. }
  apply (G2 a 0).
Qed.

Lemma nth_ids_on_plane a r b plane d1 d2 :
  Forall (fun r => 0 < r) (a ++ r :: b) ->
  valid_digits a d1 -> valid_digits b d2 ->
  nth (undigits (a ++ b) (d1 ++ d2)) (ids_on_hyper_plane (a ++ r :: b) (length a) plane) 0 =
  undigits (a ++ r :: b) (d1 ++ plane :: d2).
Proof.
  intros HF V1 V2.
  pose proof (length_ids_on_plane a r b plane) as L.
  assert (V : valid_digits (a ++ b) (d1 ++ d2)) by (apply Forall2_app; auto).
  pose proof (undigits_lt _ _ V) as Hlt.
  unfold ids_on_hyper_plane in *. rewrite map_length, seq_length in L.
  rewrite (nth_indep _ 0 (local_to_global (a ++ r :: b) (length a) plane 0 1 0 0))
    by (rewrite map_length, seq_length; lia).
  rewrite (map_nth (fun i => local_to_global (a ++ r :: b) (length a) plane 0 1 i 0)).
  rewrite seq_nth by lia. cbn [Nat.add].
  rewrite local_to_global_closed by auto.
  rewrite !undigits_app by (symmetry; now apply valid_length).
  cbn [undigits]. pose proof (undigits_lt _ _ V1). pose proof (undigits_lt _ _ V2).
  rewrite (Nat.mul_comm (prodn a)), Nat.mod_add, Nat.div_add by lia.
  rewrite (Nat.mod_small (undigits a d1)), (Nat.div_small (undigits a d1)) by lia.
  cbn [Nat.add]. rewrite Nat.mod_small by lia. lia.
Qed.

Lemma ids_on_plane_range res axis plane i :
  Forall (fun r => 0 < r) res -> axis < length res -> plane < nth axis res 0 ->
  In i (ids_on_hyper_plane res axis plane) -> i < prodn res.
Proof.
  intros H1 H2 H3 Hi. destruct (ids_on_plane_exact res axis plane H1 H2 H3) as [_ G].
  apply G in Hi. now rewrite fold_right_mul_prodn in Hi.
Qed.

Lemma Forall2_split {A B} (R : A -> B -> Prop) a b l :
  Forall2 R (a ++ b) l -> exists l1 l2, l = l1 ++ l2 /\ Forall2 R a l1 /\ Forall2 R b l2.
Proof.
  intros H. apply Forall2_app_inv_l in H. destruct H as (l1 & l2 & H1 & H2 & ->). eauto.
Qed.

Lemma slice_spec pre a post cps w plane u :
  let s := Spl (pre ++ a :: post) cps w in
  sp_wf s -> pre ++ post <> [] -> plane < ax_n a ->
  (forall i, i < ax_n a -> ax_fun a u i = if i =? plane then 1%Qc else 0%Qc) ->
  exists s', extract_slice_from_ids s
      (ids_on_hyper_plane (sp_res s) (length pre) plane) (length pre) = Extracted s' /\
    sp_axes s' = pre ++ post /\ sp_wf s' /\
    (match sp_weights s, sp_weights s' with None, None => True | Some _, Some _ => True | _, _ => False end) /\
    forall v1 v2 d, length v1 = length pre -> length v2 = length post ->
      sp_value s' (v1 ++ v2) d = sp_value s (v1 ++ u :: v2) d.
Proof.
  cbn zeta. intros W Hne Hpl Hd. pose proof (res_pos _ W) as Hpos. destruct W as (HF & Lc & Hw).
  unfold sp_res in *. cbn [sp_axes sp_cps sp_weights] in *.
  rewrite map_app in Hpos, Lc, Hw. cbn [map] in Hpos, Lc, Hw.
  set (A := map ax_n pre) in *. set (B := map ax_n post) in *. set (n := ax_n a) in *.
  assert (LA : length pre = length A) by (unfold A; now rewrite map_length).
  rewrite (fold_right_mul_prodn (A ++ n :: B)) in Lc.
  unfold extract_slice_from_ids. cbn [sp_axes sp_cps sp_weights].
  assert (Hlen : (length (pre ++ a :: post) <=? 1) = false).
  { apply Nat.leb_gt. rewrite app_length. cbn. destruct pre, post; cbn in *; try lia. easy. }
  rewrite Hlen. rewrite map_app. cbn [map]. fold A B n.
  set (ids := ids_on_hyper_plane (A ++ n :: B) (length pre) plane).
  assert (Hr : forall i, In i ids -> i < prodn (A ++ n :: B)).
  { intros i Hi. eapply ids_on_plane_range; [| | |exact Hi]; auto.
    - rewrite app_length. cbn. lia.
    - rewrite LA, app_nth2, Nat.sub_diag by lia. exact Hpl. }
  assert (Lids : length ids = prodn (A ++ B)) by (unfold ids; rewrite LA; apply length_ids_on_plane).
  rewrite remove_at_app.
  apply Forall_app in HF. destruct HF as [F1 F2]. inversion F2 as [|? ? F3 F4]; subst.
  assert (F5 : Forall ax_wf (pre ++ post)) by (apply Forall_app; auto).
  assert (Hfun : forall f v1 v2, length v1 = length pre -> length v2 = length post ->
     functional (pre ++ post) (v1 ++ v2) (fun g => f (nth g ids 0)) =
     functional (pre ++ a :: post) (v1 ++ u :: v2) f).
  { intros f v1 v2 L1 L2. apply (functional_slice pre a post v1 v2 u plane); auto.
    intros d1 d2 V1 V2. rewrite !map_app. cbn [map]. fold A B n in V1, V2 |- *. unfold ids.
    rewrite LA. now apply nth_ids_on_plane. }
  destruct (pick_reindexed cps ids) as (cps' & Ec & Rc).
  { intros i Hi. rewrite Lc. auto. }
  rewrite Ec. rewrite Lids in Rc.
  assert (Hfr : prodn (A ++ B) = fold_right Nat.mul 1 (map ax_n (pre ++ post))).
  { rewrite (fold_right_mul_prodn (map ax_n (pre ++ post))), map_app. reflexivity. }
  destruct w as [w|].
  - destruct (pick_reindexed w ids) as (w' & Ew & Rw).
    { intros i Hi. rewrite Hw, (fold_right_mul_prodn (A ++ n :: B)). auto. }
    rewrite Ew. rewrite Lids in Rw.
    eexists. split; [reflexivity|]. cbn [sp_axes sp_weights]. split; auto. split.
    + split; [auto|]. unfold sp_res. cbn [sp_axes sp_cps sp_weights]. rewrite <- Hfr. split; [apply Rc|apply Rw].
    + split; auto. intros v1 v2 d L1 L2.
      apply (value_transfer _ _ (Spl (pre ++ post) cps' (Some w')) _ (fun g => nth g ids 0)); cbn [sp_axes sp_cps sp_weights].
      * rewrite !app_length. lia.
      * unfold sp_res. cbn [sp_axes]. rewrite map_app. exact Rc.
      * unfold sp_res. cbn [sp_axes]. rewrite map_app. exact Rw.
      * intros f. now apply Hfun.
  - eexists. split; [reflexivity|]. cbn [sp_axes sp_weights]. split; auto. split.
    + split; [auto|]. unfold sp_res. cbn [sp_axes sp_cps sp_weights]. rewrite <- Hfr. split; [apply Rc|auto].
    + split; auto. intros v1 v2 d L1 L2.
      apply (value_transfer _ _ (Spl (pre ++ post) cps' None) _ (fun g => nth g ids 0)); cbn [sp_axes sp_cps sp_weights]; auto.
      * rewrite !app_length. lia.
      * unfold sp_res. cbn [sp_axes]. rewrite map_app. exact Rc.
Qed.

(** Boundary 2k+b. *)
Lemma boundary_traces s k a (upper : bool) :
  sp_wf s -> 2 <= length (sp_axes s) -> nth_error (sp_axes s) k = Some a -> ax_clamped a ->
  exists s', extract_boundary s (2 * k + Nat.b2n upper) = Extracted s' /\
    sp_axes s' = remove_at k (sp_axes s) /\ sp_wf s' /\
    (sp_weights s' = None <-> sp_weights s = None) /\
    forall v d, length v = length (sp_axes s') ->
      sp_value s' v d = sp_value s (insert_at k (if upper then ax_upper a else ax_lower a) v) d.
Proof.
  intros W Hl Hk Hc. destruct s as [axes cps w]. cbn [sp_axes] in *.
  destruct (nth_error_split axes k Hk) as (pre & post & -> & <-).
  assert (Wa : ax_wf a). { destruct W as [HF _]. apply Forall_app in HF. destruct HF as [_ HF]. now inversion HF. }
  pose proof (ax_n_pos a Wa) as Hn.
  set (k := length pre) in *.
  assert (Hdiv : (2 * k + Nat.b2n upper) / 2 = k).
  { rewrite Nat.mul_comm, Nat.div_add_l by lia. destruct upper; cbn [Nat.b2n];
    [change (1 / 2) with 0|change (0 / 2) with 0]; lia. }
  assert (Hmod : (2 * k + Nat.b2n upper) mod 2 = Nat.b2n upper).
  { rewrite Nat.add_comm, Nat.mul_comm, Nat.mod_add by lia. destruct upper; reflexivity. }
  assert (Hnth : nth k (map ax_n (pre ++ a :: post)) 0 = ax_n a).
  { rewrite map_app, app_nth2; rewrite map_length; [|unfold k; lia].
    unfold k. rewrite Nat.sub_diag. reflexivity. }
  set (plane := if upper then ax_n a - 1 else 0).
  set (u := if upper then ax_upper a else ax_lower a).
  destruct (slice_spec pre a post cps w plane u W) as (s' & E & Eax & W' & Hw & Hv).
  - destruct pre, post; cbn in *; try easy; lia.
  - unfold plane. destruct upper; lia.
  - intros i Hi. unfold u, plane. destruct upper.
    + now apply ax_fun_upper.
    + now apply ax_fun_lower.
  - exists s'. split.
    + unfold extract_boundary. cbn [sp_axes].
      assert ((length (pre ++ a :: post) <=? 1) = false) as -> by (apply Nat.leb_gt; lia).
      rewrite Hdiv, Hmod. unfold sp_res in *. cbn [sp_axes] in *. rewrite Hnth.
      replace (if Nat.b2n upper =? 0 then 0 else ax_n a - 1) with plane
        by (unfold plane; destruct upper; reflexivity).
      exact E.
    + rewrite Eax. unfold k. rewrite remove_at_app. split; auto. split; auto. split.
      { cbn [sp_weights] in *. destruct w, (sp_weights s'); split; intros; auto; try easy. }
      intros v d Lv.
      rewrite app_length in Lv.
      rewrite <- (firstn_skipn (length pre) v).
      assert (Lf : length (firstn (length pre) v) = length pre) by (rewrite firstn_length; lia).
      assert (Ls : length (skipn (length pre) v) = length post) by (rewrite skipn_length; lia).
      rewrite <- Lf at 3. rewrite insert_at_app. apply Hv; auto.
Qed.

Lemma boundaries_default s :
  extract_boundaries s [] = Some (map (extract_boundary s) (seq 0 (2 * length (sp_axes s)))).
Proof. reflexivity. Qed.

Lemma boundaries_requested s bids :
  bids <> [] -> Forall (fun b => (0 <= b < 2 * Z.of_nat (length (sp_axes s)))%Z) bids ->
  extract_boundaries s bids = Some (map (fun b => extract_boundary s (Z.to_nat b)) bids).
Proof.
  intros Hne H. unfold extract_boundaries. destruct bids as [|b0 bs]; [easy|].
  generalize dependent (b0 :: bs). intros l _ H. induction H as [|b l Hb HF IH]; auto.
  cbn [map all_some].
  destruct (Z.ltb_spec b 0); [lia|].
  destruct (Z.ltb_spec (Z.of_nat (2 * length (sp_axes s)) - 1) b); [lia|]. cbn [orb].
  now rewrite IH.
Qed.

Lemma boundaries_rejected s bids :
  Exists (fun b => (b < 0 \/ 2 * Z.of_nat (length (sp_axes s)) <= b)%Z) bids ->
  extract_boundaries s bids = None.
Proof.
  intros H. unfold extract_boundaries. destruct bids as [|b0 bs]; [inversion H|].
  induction H as [b l Hb|b l Hx IH]; cbn [map all_some].
  - destruct (Z.ltb_spec b 0); auto.
    destruct (Z.ltb_spec (Z.of_nat (2 * length (sp_axes s)) - 1) b); auto. lia.
  - rewrite IH. destruct (_ || _)%bool; auto.
Qed.

Lemma curve_boundary_empty s bid : length (sp_axes s) <= 1 -> extract_boundary s bid = EmptySpline.
Proof. intros H. unfold extract_boundary. apply Nat.leb_le in H. now rewrite H. Qed.
