(** Knot queries. *)
From Coq Require Import List Arith Lia ZArith QArith Qcanon Permutation Sorted.
From Verif Require Import Base BaseRadix BaseQc BaseSort S_Spline S_Value P_Basis P_Spline P_Value
  P_KnotInsert M_Knots S_Knots.
Import ListNotations.
Local Open Scope nat_scope.

(** * unique *)
Lemma near_spec eps x y : Bool.reflect (qabs (x - y)%Qc < eps)%Qc (near eps x y).
Proof. apply qltb_spec. Qed.

Lemma qabs_le x y : (x <= y)%Qc -> qabs (x - y)%Qc = (y - x)%Qc.
Proof.
  intros H. unfold qabs. destruct (Qclt_le_dec (x - y) 0); [ring|].
  assert (x = y) by (apply Qcle_antisym; auto; qlra). subst. ring.
Qed.
Lemma qabs_0 x : qabs (x - x)%Qc = 0%Qc.
Proof. rewrite qabs_le by apply Qcle_refl. ring. Qed.

Lemma apart_near eps l x y :
  (0 < eps)%Qc -> apart eps l -> In x l -> In y l -> (near eps x y = true <-> x = y).
Proof.
  intros He Ha Hx Hy. destruct (near_spec eps x y) as [H|H]; split; auto; try easy.
  - intros _. destruct (Ha x y Hx Hy) as [|G]; auto. exfalso. qlra.
  - intros ->. exfalso. apply H. now rewrite qabs_0.
Qed.

Section UniqueSorted.
Variable eps : Qc.
Hypothesis Heps : (0 < eps)%Qc.
Let U := unique_from (near eps).
Let gap x y := (x + eps <= y)%Qc.

Lemma sorted_drop2 (x y : Qc) l : qsorted (x :: y :: l) -> qsorted (x :: l).
Proof.
  intros H. inversion H as [|? ? H1 H2]; subst. inversion H1; subst. inversion H2; subst.
  constructor; auto.
Qed.
Lemma sorted_hd2 (x y : Qc) l : qsorted (x :: y :: l) -> (x <= y)%Qc /\ qsorted (y :: l).
Proof. intros H. inversion H as [|? ? H1 H2]; subst. inversion H2; subst. auto. Qed.

Lemma unique_gap cur l : qsorted (cur :: l) -> StronglySorted gap (cur :: U cur l).
Proof.
  revert cur; induction l as [|x r IH]; intros cur H; cbn.
  - repeat constructor.
  - destruct (near_spec eps cur x) as [N|N].
    + apply IH. eapply sorted_drop2, H.
    + destruct (sorted_hd2 _ _ _ H) as [Hle Hs]. specialize (IH x Hs).
      rewrite qabs_le in N by auto.
      constructor; auto. inversion IH as [|? ? H1 H2]; subst. constructor; [unfold gap; qlra|].
      eapply Forall_impl; [|exact H2]. unfold gap. intros y Hy. qlra.
Qed.
Lemma unique_incl cur l y : In y (U cur l) -> In y l.
Proof.
  revert cur; induction l as [|x r IH]; intros cur; cbn; auto.
  destruct (near eps cur x); [intros H; right; eapply IH, H|].
  intros [->|H]; auto. right; eapply IH, H.
Qed.
Lemma unique_cover cur l y :
  qsorted (cur :: l) -> In y (cur :: l) -> exists z, In z (cur :: U cur l) /\ (z <= y)%Qc /\ (y < z + eps)%Qc.
Proof.
  revert cur; induction l as [|x r IH]; intros cur Hs Hy.
  - destruct Hy as [->|[]]. exists y. split; [now left|]. split; qlra.
  - destruct Hy as [->|Hy].
    { exists y. split; [now left|]. split; qlra. }
    destruct (sorted_hd2 _ _ _ Hs) as [Hle Hs']. cbn.
    destruct (near_spec eps cur x) as [N|N].
    + destruct Hy as [->|Hy].
      * exists cur. split; [now left|]. rewrite qabs_le in N by auto. split; qlra.
      * apply (IH cur); [eapply sorted_drop2, Hs|now right].
    + destruct (IH x Hs' Hy) as (z & Hz & H1). exists z. split; auto.
Qed.
End UniqueSorted.

Lemma std_unique_gap eps l :
  (0 < eps)%Qc -> qsorted l -> StronglySorted (fun x y => x + eps <= y)%Qc (std_unique (near eps) l).
Proof. intros He H. destruct l; [constructor|]. now apply unique_gap. Qed.
Lemma std_unique_incl eps l y : In y (std_unique (near eps) l) -> In y l.
Proof. destruct l; cbn; auto. intros [->|H]; auto. right. eapply unique_incl, H. Qed.
Lemma std_unique_cover eps l y :
  (0 < eps)%Qc -> qsorted l -> In y l ->
  exists z, In z (std_unique (near eps) l) /\ (z <= y)%Qc /\ (y < z + eps)%Qc.
Proof. intros He H Hy. destruct l; [easy|]. now apply unique_cover. Qed.
Lemma std_unique_in eps l y :
  (0 < eps)%Qc -> qsorted l -> apart eps l -> In y (std_unique (near eps) l) <-> In y l.
Proof.
  intros He H Ha. split; [apply std_unique_incl|]. intros Hy.
  destruct (std_unique_cover eps l y He H Hy) as (z & Hz & H1 & H2).
  assert (z = y); [|now subst]. destruct (Ha z y) as [|G]; auto.
  - eapply std_unique_incl, Hz.
  - rewrite qabs_le in G by auto. exfalso. qlra.
Qed.

Lemma gap_strict eps l :
  (0 < eps)%Qc -> StronglySorted (fun x y => x + eps <= y)%Qc l -> StronglySorted Qclt l.
Proof.
  intros He. induction 1; constructor; auto. eapply Forall_impl; [|eassumption]. cbn. intros; qlra.
Qed.

(** Strictly sorted lists are determined by their elements. *)
Lemma strict_ext l l' :
  StronglySorted Qclt l -> StronglySorted Qclt l' -> (forall x, In x l <-> In x l') -> l = l'.
Proof.
  assert (ND : forall l, StronglySorted Qclt l -> NoDup l).
  { induction 1 as [|x k H IH HF]; constructor; auto. intros Hx. rewrite Forall_forall in HF.
    specialize (HF x Hx). qlra. }
  assert (W : forall l, StronglySorted Qclt l -> qsorted l).
  { induction 1; constructor; auto. eapply Forall_impl; [|eassumption]. cbn. intros; qlra. }
  intros H H' E. apply sorted_perm_eq; auto. apply NoDup_Permutation; auto.
Qed.
Lemma strict_last l m d :
  StronglySorted Qclt l -> In m l -> (forall x, In x l -> (x <= m)%Qc) -> last l d = m.
Proof.
  induction 1 as [|x l H IH HF]; intros Hm Hall; [easy|].
  destruct l as [|y l].
  - destruct Hm as [->|[]]. reflexivity.
  - change (last (x :: y :: l) d) with (last (y :: l) d). apply IH.
    + destruct Hm as [->|Hm]; auto. exfalso.
      rewrite Forall_forall in HF. specialize (HF y (or_introl eq_refl)).
      specialize (Hall y (or_intror (or_introl eq_refl))). qlra.
    + intros z Hz. apply Hall. now right.
Qed.

(** Valid range of a knot vector. *)
Definition valid_knots (p : nat) (kv : list Qc) : list Qc := firstn (length kv - 2 * p) (skipn p kv).

Lemma qsorted_skipn k l : qsorted l -> qsorted (skipn k l).
Proof.
  revert l; induction k; intros l H; cbn; auto. destruct l; auto. inversion H; auto.
Qed.
Lemma In_firstn {A} k (l : list A) x : In x (firstn k l) -> In x l.
Proof. revert l; induction k; intros [|y l]; cbn; try easy. intros [->|H]; auto. Qed.
Lemma qsorted_firstn k l : qsorted l -> qsorted (firstn k l).
Proof.
  intros H; revert k; induction H as [|x l H IH HF]; intros [|k]; cbn; try constructor; auto.
  - rewrite Forall_forall in *. intros y Hy. apply HF. eapply In_firstn, Hy.
Qed.
Lemma valid_sorted p kv : qsorted kv -> qsorted (valid_knots p kv).
Proof. intros. now apply qsorted_firstn, qsorted_skipn. Qed.
Lemma In_skipn {A} k (l : list A) x : In x (skipn k l) -> In x l.
Proof. revert l; induction k; intros [|y l]; cbn; try easy. intros H. right. auto. Qed.
Lemma valid_incl p kv x : In x (valid_knots p kv) -> In x kv.
Proof. intros H. eapply In_skipn, In_firstn, H. Qed.

Lemma valid_length p n kv : knot_vector p n kv -> p < n -> length (valid_knots p kv) = n - p + 1.
Proof.
  intros (L & _) H. unfold valid_knots. rewrite firstn_length, skipn_length. lia.
Qed.
Lemma nth_firstn {A} k (l : list A) i d : i < k -> nth i (firstn k l) d = nth i l d.
Proof. revert l i; induction k; intros [|x l] [|i] H; cbn; try lia; auto. apply IHk. lia. Qed.
Lemma valid_nth p n kv i : knot_vector p n kv -> p < n -> i < n - p + 1 ->
  nth i (valid_knots p kv) 0%Qc = kn kv (p + i).
Proof.
  intros K H Hi. pose proof K as (L & _). unfold valid_knots. rewrite nth_firstn by lia.
  rewrite nth_skipn. symmetry. apply kn_nth. lia.
Qed.
Lemma valid_in p n kv x : knot_vector p n kv -> p < n ->
  (In x (valid_knots p kv) <-> exists i, p <= i <= n /\ x = kn kv i).
Proof.
  intros K H. split.
  - intros Hx. destruct (In_nth _ _ 0%Qc Hx) as (i & Hi & <-).
    rewrite (valid_length p n) in Hi by auto. exists (p + i). split; [lia|]. now apply (valid_nth p n).
  - intros (i & Hi & ->). replace i with (p + (i - p)) by lia.
    rewrite <- (valid_nth p n) by (auto; lia). apply nth_In. rewrite (valid_length p n); auto. lia.
Qed.

Lemma kv_degree p n kv : knot_vector p n kv -> p < n.
Proof.
  intros (L & ND & H). destruct (le_lt_dec n p) as [G|]; auto.
  pose proof (kn_mono kv ND n p G). qlra.
Qed.

(** C16 *)
Lemma unique_knots_spaced eps p n kv :
  (0 < eps)%Qc -> knot_vector p n kv ->
  StronglySorted (fun x y => x + eps <= y)%Qc (unique_knots eps p kv) /\
  hd 0%Qc (unique_knots eps p kv) = kn kv p /\
  (forall x, In x (unique_knots eps p kv) -> exists i, p <= i <= n /\ x = kn kv i) /\
  (forall i, p <= i <= n -> exists x, In x (unique_knots eps p kv) /\ (x <= kn kv i)%Qc /\ (kn kv i < x + eps)%Qc).
Proof.
  intros He K. pose proof (kv_degree _ _ _ K) as Hpn. pose proof K as (L & ND & _).
  assert (S : qsorted (valid_knots p kv)) by (apply valid_sorted; now apply nd_sorted).
  unfold unique_knots. fold (valid_knots p kv). split; [|split; [|split]].
  - now apply std_unique_gap.
  - pose proof (valid_nth p n kv 0 K Hpn ltac:(lia)) as E. rewrite Nat.add_0_r in E.
    pose proof (valid_length p n kv K Hpn). destruct (valid_knots p kv) as [|x r] eqn:EV; cbn in *; [lia|auto].
  - intros x Hx. apply std_unique_incl in Hx. now apply (valid_in p n).
  - intros i Hi. apply std_unique_cover; auto. apply (valid_in p n); auto. now exists i.
Qed.

Lemma unique_knots_valid eps p n kv :
  (0 < eps)%Qc -> knot_vector p n kv -> apart eps (valid_knots p kv) ->
  StronglySorted Qclt (unique_knots eps p kv) /\
  (forall x, In x (unique_knots eps p kv) <-> exists i, p <= i <= n /\ x = kn kv i) /\
  hd 0%Qc (unique_knots eps p kv) = kn kv p /\ last (unique_knots eps p kv) 0%Qc = kn kv n.
Proof.
  intros He K Ha. destruct (unique_knots_spaced eps p n kv He K) as (S1 & H1 & H2 & H3).
  pose proof (kv_degree _ _ _ K) as Hpn. pose proof K as (L & ND & _).
  assert (S : qsorted (valid_knots p kv)) by (apply valid_sorted; now apply nd_sorted).
  assert (E : forall x, In x (unique_knots eps p kv) <-> exists i, p <= i <= n /\ x = kn kv i).
  { intros x. unfold unique_knots. fold (valid_knots p kv). rewrite std_unique_in; auto.
    now apply valid_in. }
  assert (S2 := gap_strict eps _ He S1). repeat (split; auto).
  apply strict_last; auto.
  - apply E. exists n. split; [lia|auto].
  - intros x Hx. apply E in Hx. destruct Hx as (i & Hi & ->). apply kn_mono; auto. lia.
Qed.

Lemma unique_knots_exact eps p n kv :
  (0 < eps)%Qc -> knot_vector p n kv -> apart eps kv ->
  StronglySorted Qclt (unique_knots eps p kv) /\
  (forall x, In x (unique_knots eps p kv) <-> exists i, p <= i <= n /\ x = kn kv i) /\
  hd 0%Qc (unique_knots eps p kv) = kn kv p /\ last (unique_knots eps p kv) 0%Qc = kn kv n.
Proof.
  intros He K Ha. apply unique_knots_valid; auto.
  intros a b Hx Hy. apply Ha; eapply valid_incl; eassumption.
Qed.

Lemma expand_runs {A} (same : A -> A -> bool) cur m l :
  (forall x y, In x (cur :: l) -> In y (cur :: l) -> (same x y = true <-> x = y)) ->
  concat (map (fun um => repeat (fst um) (snd um)) (combine (cur :: unique_from same cur l) (runs_from same cur m l))) =
  repeat cur m ++ l.
Proof.
  revert cur m; induction l as [|x r IH]; intros cur m H.
  - cbn. now rewrite app_nil_r.
  - cbn [unique_from runs_from]. destruct (same cur x) eqn:E.
    + apply H in E; [|now left|right; now left]. subst x.
      rewrite IH. 2:{ intros a b Ha Hb. apply H; destruct Ha, Hb; cbn; auto. }
      change (cur :: r) with (repeat cur 1 ++ r). rewrite app_assoc, <- repeat_app.
      now replace (m + 1) with (S m) by lia.
    + transitivity (repeat cur m ++ concat (map (fun um => repeat (fst um) (snd um))
        (combine (x :: unique_from same x r) (runs_from same x 1 r)))); [reflexivity|].
      rewrite IH; [reflexivity|]. intros a b Ha Hb. apply H; now right.
Qed.

Lemma last_In {A} (l : list A) d : l <> [] -> In (last l d) l.
Proof.
  induction l as [|x l IH]; [easy|]. intros _. destruct l; [now left|]. right. apply IH. discriminate.
Qed.

Lemma multiplicities_expand eps p n kv :
  (0 < eps)%Qc -> knot_vector p n kv -> apart eps kv -> clamped_ends p kv ->
  expand_knots (unique_knots eps p kv) (run_lengths (near eps) kv) = kv.
Proof.
  intros He K Ha [C1 C2]. pose proof K as (L & ND & _). pose proof (kv_degree _ _ _ K) as Hpn.
  destruct (unique_knots_exact eps p n kv He K Ha) as (S1 & E1 & _).
  assert (SK : qsorted kv) by now apply nd_sorted.
  assert (EU : unique_knots eps p kv = std_unique (near eps) kv).
  { apply strict_ext; auto.
    - eapply gap_strict; [exact He|]. now apply std_unique_gap.
    - intros x. rewrite E1, std_unique_in by auto. split.
      + intros (i & Hi & ->). rewrite (kn_nth kv i 0%Qc) by lia. apply nth_In. lia.
      + intros Hx. destruct (In_nth _ _ 0%Qc Hx) as (i & Hi & <-).
        rewrite <- (kn_nth kv i 0%Qc) by auto.
        pose proof (kn_mono kv ND) as M.
        destruct (le_lt_dec p i) as [Hp|Hp]; [destruct (le_lt_dec i n) as [Hn|Hn]|].
        * exists i. split; [lia|auto].
        * exists n. split; [lia|]. replace (length kv - p - 1) with n in C2 by lia.
          apply Qcle_antisym; [|apply M; lia]. rewrite C2. apply M. lia.
        * exists p. split; [lia|]. apply Qcle_antisym; [apply M; lia|]. rewrite <- C1. apply M. lia. }
  rewrite EU. destruct kv as [|x r]; [cbn in L; lia|].
  unfold expand_knots. cbn [std_unique run_lengths].
  rewrite (expand_runs (near eps) x 1 r); [reflexivity|].
  intros a b Hx Hy. now apply (apart_near eps (x :: r)).
Qed.

(** * Scaling *)
Section Scale.
Variables (p n : nat) (kv : list Qc).
Hypothesis K : knot_vector p n kv.
Let f := kn kv 0.
Let l := kn kv (length kv - 1).

Lemma scale_pos : (f < l)%Qc.
Proof.
  pose proof (kv_degree _ _ _ K). destruct K as (L & ND & D). pose proof (kn_mono kv ND) as M.
  unfold f, l. pose proof (M 0 p ltac:(lia)). pose proof (M n (length kv - 1) ltac:(lia)). qlra.
Qed.
Lemma scale_len : length (scale01 kv) = length kv.
Proof. unfold scale01. apply map_length. Qed.
Lemma scale_kn k : kn (scale01 kv) k = ((kn kv k - f) / (l - f))%Qc.
Proof.
  pose proof K as (L & _).
  destruct (le_lt_dec (length kv) k) as [H|H].
  - rewrite (kn_past (scale01 kv)) by (rewrite scale_len; lia). rewrite (kn_past kv) by lia. rewrite scale_len.
    set (g := fun x => ((x - kn kv 0) / (kn kv (length kv - 1) - kn kv 0))%Qc).
    rewrite (kn_nth (scale01 kv) _ (g 0%Qc)) by (rewrite scale_len; lia).
    unfold scale01. fold g. rewrite map_nth. rewrite <- (kn_nth kv) by lia. reflexivity.
  - set (g := fun x => ((x - kn kv 0) / (kn kv (length kv - 1) - kn kv 0))%Qc).
    rewrite (kn_nth (scale01 kv) _ (g 0%Qc)) by (rewrite scale_len; lia).
    unfold scale01. fold g. rewrite map_nth. rewrite <- (kn_nth kv) by lia. reflexivity.
Qed.
Lemma div_le_iff a b c : (0 < c)%Qc -> (a / c <= b / c)%Qc <-> (a <= b)%Qc.
Proof.
  intros H. pose proof (Qc_inv_pos c H) as Hi. unfold Qcdiv. split; intros G.
  - apply Qcmult_le_compat_r with (z := c) in G; [|qlra].
    rewrite <- !Qcmult_assoc, !(Qcmult_comm (/ c) c), Qcmult_inv_r in G; [|qlra].
    now rewrite !Qcmult_1_r in G.
  - apply Qcmult_le_compat_r; auto. qlra.
Qed.
Lemma scale_le x y : (((x - f) / (l - f)) <= ((y - f) / (l - f)))%Qc <-> (x <= y)%Qc.
Proof.
  rewrite div_le_iff by (pose proof scale_pos; qlra). split; intros; qlra.
Qed.
Lemma scale_lt x y : (((x - f) / (l - f)) < ((y - f) / (l - f)))%Qc <-> (x < y)%Qc.
Proof. rewrite <- !nle_lt. now rewrite scale_le. Qed.
Lemma scale_wf : knot_vector p n (scale01 kv).
Proof.
  pose proof K as (L & ND & D). split; [now rewrite scale_len|]. split.
  - intros i j Hij Hj. rewrite <- !(kn_nth (scale01 kv)) by lia. rewrite !scale_kn. apply scale_le.
    apply kn_mono; auto.
  - rewrite !scale_kn. now apply scale_lt.
Qed.
Lemma scale_span u : find_span (scale01 kv) p n ((u - f) / (l - f))%Qc = find_span kv p n u.
Proof.
  unfold find_span. f_equal. apply filter_ext. intros s. rewrite !scale_kn.
  f_equal.
  - destruct (qleb_spec ((kn kv s - f) / (l - f)) ((u - f) / (l - f))) as [H|H],
      (qleb_spec (kn kv s) u) as [G|G]; auto; rewrite scale_le in H; easy.
  - destruct (qltb_spec ((kn kv s - f) / (l - f)) ((kn kv (S s) - f) / (l - f))) as [H|H],
      (qltb_spec (kn kv s) (kn kv (S s))) as [G|G]; auto; rewrite scale_lt in H; easy.
Qed.
Lemma scale_basis u i : bspline_basis (scale01 kv) p n ((u - f) / (l - f))%Qc i = bspline_basis kv p n u i.
Proof.
  unfold bspline_basis. rewrite scale_span. pose proof scale_pos.
  assert (E : forall x, ((x - f) / (l - f) = / (l - f) * x + (- f / (l - f)))%Qc).
  { intros x. field. qlra. }
  rewrite (basis_ext _ (fun k => / (l - f) * kn kv k + (- f / (l - f)))%Qc).
  2:{ intros k _ _. rewrite scale_kn. apply E. }
  rewrite E. apply basis_affine. intros G.
  assert ((l - f) * / (l - f) = 1)%Qc by (apply Qcmult_inv_r; qlra). rewrite G in H0. qlra.
Qed.
End Scale.

Lemma normalize_n a : ax_n (normalize_axis a) = ax_n a.
Proof. destruct a; cbn; auto. now rewrite scale_len. Qed.
Lemma normalize_fun a u i : ax_wf a -> ax_fun (normalize_axis a) (unit_param a u) i = ax_fun a u i.
Proof.
  destruct a as [p|p kv]; cbn [normalize_axis unit_param ax_fun ax_wf]; auto. intros W.
  change (ax_n (KnotAxis p (scale01 kv))) with (ax_n (normalize_axis (KnotAxis p kv))).
  rewrite normalize_n. now apply scale_basis.
Qed.

Lemma normalize_axis_spec p kv :
  ax_wf (KnotAxis p kv) ->
  exists kv', normalize_axis (KnotAxis p kv) = KnotAxis p kv' /\ ax_wf (KnotAxis p kv') /\
    length kv' = length kv /\ kn kv' 0 = 0%Qc /\ kn kv' (length kv - 1) = 1%Qc /\
    exists c, (0 < c)%Qc /\ forall i j, (kn kv' j - kn kv' i = c * (kn kv j - kn kv i))%Qc.
Proof.
  intros W. cbn [ax_wf] in W. exists (scale01 kv). split; [reflexivity|].
  pose proof (scale_pos _ _ _ W) as H.
  split; [|split; [apply scale_len|split; [|split]]].
  - cbn [ax_wf]. change (ax_n (KnotAxis p (scale01 kv))) with (ax_n (normalize_axis (KnotAxis p kv))).
    rewrite normalize_n. now apply scale_wf.
  - rewrite (scale_kn _ _ _ W). field. qlra.
  - rewrite (scale_kn _ _ _ W). field. qlra.
  - exists (/ (kn kv (length kv - 1) - kn kv 0))%Qc. split; [apply Qc_inv_pos; qlra|].
    intros i j. rewrite !(scale_kn _ _ _ W). field. qlra.
Qed.

Lemma normalize_values s us d :
  sp_wf s -> length us = length (sp_axes s) ->
  sp_value (normalize_knot_vectors s) (map (fun au => unit_param (fst au) (snd au)) (combine (sp_axes s) us)) d
  = sp_value s us d.
Proof.
  intros (W & _) L. destruct s as [axes cps w]. unfold normalize_knot_vectors. cbn [sp_axes sp_cps sp_weights] in *.
  apply value_axes_ext; auto.
  - now rewrite !map_length, combine_length, L, Nat.min_id.
  - revert us L; induction W as [|a axes Wa W IH]; intros [|u us] L; cbn in L; try lia; cbn [map combine]; constructor.
    + cbn [fst snd]. split; [apply normalize_n|]. intros. now apply normalize_fun.
    + apply IH. lia.
Qed.
