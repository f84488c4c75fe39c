(** Proofs for extracted parts of splines: knots and basis functions. *)
From Coq Require Import List Arith ZArith Bool QArith Qcanon Lia Sorted.
From Verif Require Import Base BaseRadix BaseQc S_Grid S_Spline S_Value P_Grid P_Spline P_Basis P_Value P_KnotInsert P_Knots M_Numpy M_Core M_Create S_SubSpline M_SubSpline.
Import ListNotations.
Local Open Scope list_scope.
Local Open Scope nat_scope.

(** * Sorted lists *)
Lemma sorted_parts x l : StronglySorted Qcle l -> exists l1 l2, l = l1 ++ repeat x (times x l) ++ l2 /\
  Forall (fun y => y < x)%Qc l1 /\ Forall (fun y => x < y)%Qc l2.
Proof.
  induction 1 as [|y l HS IH HF]; [exists [], []; repeat split; constructor|].
  destruct IH as (l1 & l2 & E & F1 & F2). unfold times in *. cbn [count_occ]. destruct (Qc_eq_dec y x) as [->|N].
  - assert (l1 = []) as ->.
    { destruct l1 as [|z l1]; auto. rewrite E in HF. inversion HF; subst. inversion F1; subst. exfalso. qlra. }
    exists [], l2. cbn [app repeat] in *. now rewrite <- E.
  - destruct (Qclt_le_dec y x) as [L|L].
    + exists (y :: l1), l2. cbn [app]. rewrite <- E. repeat split; auto.
    + assert (x < y)%Qc as L'. { apply Qcle_lt_or_eq in L as [L|L]; auto. now subst. }
      assert (Forall (fun y => x < y)%Qc l) as G.
      { eapply Forall_impl; [|exact HF]. cbn. intros. qlra. }
      assert (count_occ Qc_eq_dec l x = 0) as ->.
      { apply count_occ_not_In. intros I. rewrite Forall_forall in G. specialize (G _ I). qlra. }
      exists [], (y :: l). cbn. repeat split; auto.
Qed.
Lemma times_app x l1 l2 : times x (l1 ++ l2) = times x l1 + times x l2.
Proof. apply count_occ_app. Qed.
Lemma times_cons x y l : times x (y :: l) = (if Qc_eq_dec y x then 1 else 0) + times x l.
Proof. unfold times. cbn. now destruct (Qc_eq_dec y x). Qed.
Lemma times_none x l : ~ In x l -> times x l = 0.
Proof. intros H. now apply count_occ_not_In. Qed.
Lemma times_in x l : 0 < times x l -> In x l.
Proof. intros H. now apply (count_occ_In Qc_eq_dec). Qed.
Lemma times_repeat x n : times x (repeat x n) = n.
Proof. induction n; auto. cbn [repeat]. rewrite times_cons, IHn. now destruct (Qc_eq_dec x x). Qed.

(** * The last knot near a value *)
Lemma nth_repeat_in (x d : Qc) n i : i < n -> nth i (repeat x n) d = x.
Proof. intros H. rewrite (nth_indep _ d x) by (rewrite repeat_length; lia). apply nth_repeat. Qed.
Lemma last_near_at tol l1 x n l2 : (0 < tol)%Qc -> clear_of tol (l1 ++ repeat x (S n) ++ l2) x -> Forall (fun y => x < y)%Qc l2 ->
  last_near tol (l1 ++ repeat x (S n) ++ l2) x = Some (length l1 + n).
Proof.
  intros T C F. set (kv := l1 ++ repeat x (S n) ++ l2) in *. unfold last_near.
  assert (length kv = (length l1 + n) + (1 + length l2)) as ->. { unfold kv. rewrite !app_length, repeat_length. lia. }
  rewrite !seq_app, !filter_app. cbn [seq filter].
  rewrite !Nat.add_0_l. assert (nth (length l1 + n) kv 0%Qc = x) as ->.
  { unfold kv. rewrite app_nth2 by lia. rewrite app_nth1 by (rewrite repeat_length; lia).
    apply nth_repeat_in. lia. }
  replace (qltb (qabs (x - x)) tol) with true.
  2:{ symmetry. destruct (qltb_spec (qabs (x - x)%Qc) tol) as [|H]; auto. exfalso. apply H.
      replace (x - x)%Qc with 0%Qc by ring. exact T. }
  rewrite (filter_none _ (seq (length l1 + n + 1) (length l2))).
  2:{ intros i Hi. apply in_seq in Hi. destruct (qltb_spec (qabs (nth i kv 0%Qc - x)%Qc) tol) as [H|]; auto. exfalso.
      assert (In (nth i kv 0%Qc) l2) as I.
      { unfold kv. rewrite app_assoc, app_nth2 by (rewrite app_length, repeat_length; lia). apply nth_In. rewrite app_length, repeat_length. lia. }
      rewrite Forall_forall in F. specialize (F _ I).
      destruct (C (nth i kv 0%Qc)) as [E|E]; [unfold kv; rewrite !in_app_iff; auto|rewrite E in F; qlra|qlra]. }
  cbn [app]. rewrite rev_app_distr. reflexivity.
Qed.

(** * Clamped knot vectors *)
Record shape (p : nat) (a b : Qc) (kv : list Qc) : Prop := Shape {
  sh_sorted : StronglySorted Qcle kv;
  sh_low : times a kv = p + 1;
  sh_high : times b kv = p + 1;
  sh_in : Forall (fun y => a <= y /\ y <= b)%Qc kv;
  sh_lt : (a < b)%Qc }.

Lemma shape_parts p a b kv : shape p a b kv -> exists m, kv = repeat a (p + 1) ++ m ++ repeat b (p + 1) /\ Forall (fun y => a < y /\ y < b)%Qc m.
Proof.
  intros [HS HL HH HI HB].
  destruct (sorted_parts a kv HS) as (l1 & l2 & E & F1 & F2). rewrite HL in E.
  assert (l1 = []) as ->.
  { destruct l1 as [|z l1]; auto. inversion F1; subst. inversion HI; subst. exfalso. qlra. }
  cbn [app] in E. assert (StronglySorted Qcle l2) as S2.
  { rewrite E in HS. clear - HS. induction (p + 1); auto. cbn in HS. inversion HS; auto. }
  destruct (sorted_parts b l2 S2) as (m & l3 & E2 & F3 & F4).
  assert (times b l2 = p + 1) as T. { rewrite <- HH, E, times_app, (times_none b (repeat _ _)); auto. intros I. apply repeat_spec in I. subst. qlra. }
  rewrite T in E2. assert (l3 = []) as ->.
  { destruct l3 as [|z l3]; auto. exfalso. inversion F4; subst.
    assert (In z (repeat a (p + 1) ++ m ++ repeat b (p + 1) ++ z :: l3)) as I by (rewrite !in_app_iff; cbn; auto).
    rewrite Forall_forall in HI. specialize (HI z I). clear - HI H1. qlra. }
  rewrite app_nil_r in E2. exists m. split; [now rewrite E, E2|].
  apply Forall_forall. intros y I. rewrite Forall_forall in F2, F3. split; auto. apply F2. rewrite E2. apply in_app_iff; auto.
Qed.

Lemma kn_app1 l1 l2 i : i < length l1 -> kn (l1 ++ l2) i = nth i l1 0%Qc.
Proof. intros H. unfold kn. rewrite app_nth1 by auto. now apply nth_indep. Qed.
Lemma kn_app2 l1 l2 i : length l1 <= i -> i < length l1 + length l2 -> kn (l1 ++ l2) i = kn l2 (i - length l1).
Proof. intros H H'. unfold kn. rewrite app_nth2 by auto. apply nth_indep. lia. Qed.

Lemma shape_kn p a b kv : shape p a b kv -> 2 * (p + 1) <= length kv /\ (forall i, i <= p -> kn kv i = a) /\
  (forall i, i <= p -> kn kv (length kv - p - 1 + i) = b) /\ (forall i, p < i -> i < length kv -> (a < kn kv i)%Qc) /\
  (forall i, i < length kv - p - 1 -> (kn kv i < b)%Qc).
Proof.
  intros H. pose proof (sh_lt _ _ _ _ H) as AB. destruct (shape_parts p a b kv H) as (m & -> & F).
  rewrite !app_length, !repeat_length. assert (forall i, i < length m -> (a < nth i m 0 /\ nth i m 0 < b)%Qc) as G.
  { intros i Hi. rewrite Forall_forall in F. apply F, nth_In, Hi. }
  split; [lia|]. split; [|split; [|split]]; intros i Hi.
  - rewrite kn_app1 by (rewrite repeat_length; lia). apply nth_repeat_in. lia.
  - rewrite kn_app2 by (rewrite ?app_length, !repeat_length; lia). rewrite repeat_length.
    rewrite kn_app2 by (rewrite ?repeat_length; lia). unfold kn. apply nth_repeat_in. lia.
  - intros Hi'. rewrite kn_app2 by (rewrite ?app_length, !repeat_length; lia). rewrite repeat_length.
    destruct (le_lt_dec (length m) (i - (p + 1))).
    + rewrite kn_app2 by (rewrite ?repeat_length; lia). unfold kn. rewrite nth_repeat_in by lia. exact AB.
    + rewrite kn_app1 by lia. apply G. lia.
  - destruct (le_lt_dec (p + 1) i).
    + rewrite kn_app2 by (rewrite ?app_length, !repeat_length; lia). rewrite repeat_length, kn_app1 by lia. apply G. lia.
    + rewrite kn_app1 by (rewrite repeat_length; lia). rewrite nth_repeat_in by lia. exact AB.
Qed.

Lemma shape_wf p a b kv : shape p a b kv -> ax_wf (KnotAxis p kv) /\ ax_clamped (KnotAxis p kv) /\
  ax_lower (KnotAxis p kv) = a /\ ax_upper (KnotAxis p kv) = b.
Proof.
  intros H. destruct (shape_kn p a b kv H) as (L & A & B & A' & B'). pose proof (sh_lt _ _ _ _ H) as AB.
  cbn [ax_wf ax_clamped ax_lower ax_upper ax_n]. pose proof (B 0 ltac:(lia)) as B0. rewrite Nat.add_0_r in B0.
  pose proof (B p ltac:(lia)) as Bp. unfold knot_vector. rewrite Bp, B0, (A p), (A 0) by lia.
  repeat split; auto; try lia.
  - apply nd_sorted. apply (sh_sorted _ _ _ _ H).
  - apply A'; lia.
  - apply B'. lia.
Qed.
Lemma skip_skip {A} (l : list A) i : forall q, skipn q (skipn i l) = skipn (i + q) l.
Proof. revert l; induction i as [|i IH]; intros l q; [reflexivity|]. destruct l; cbn [skipn Nat.add]; [now destruct q|apply IH]. Qed.
Lemma kn_in kv i : i < length kv -> In (kn kv i) kv.
Proof. intros H. unfold kn. now apply nth_In. Qed.
Lemma shape_clamped p kv : ax_wf (KnotAxis p kv) -> ax_clamped (KnotAxis p kv) -> 
  shape p (ax_lower (KnotAxis p kv)) (ax_upper (KnotAxis p kv)) kv.
Proof.
  intros W C. pose proof (ax_n_degree _ W) as Hn. cbn [ax_degree] in Hn. cbn [ax_wf ax_clamped ax_lower ax_upper] in *.
  set (n := ax_n (KnotAxis p kv)) in *. destruct W as (L & N & D), C as (C1 & C2 & C3 & C4). pose proof (kn_mono kv N) as M.
  assert (forall l x, StronglySorted Qcle l -> forall q i, i + q <= length l -> (forall j, j < q -> kn l (i + j) = x) ->
    (forall j, j < i -> (kn l j < x)%Qc) -> (forall j, i + q <= j -> j < length l -> (x < kn l j)%Qc) -> times x l = q) as Count.
  { clear. intros l x HS q i Hq E F G. rewrite <- (firstn_skipn i l). 
    assert (skipn i l = repeat x q ++ skipn (i + q) l) as E2.
    { rewrite <- (firstn_skipn q (skipn i l)), skip_skip. f_equal.
      apply (nth_ext _ _ 0%Qc 0%Qc); [rewrite firstn_length, skipn_length, repeat_length; lia|].
      intros j Hj. rewrite firstn_length, skipn_length in Hj. rewrite nth_repeat_in by lia.
      rewrite P_Knots.nth_firstn by lia. rewrite nth_skipn, <- (E j) by lia. unfold kn. apply nth_indep. lia. }
    rewrite E2, !times_app, times_repeat, !times_none; [lia| |].
    - intros I. apply (In_nth _ _ 0%Qc) in I as (j & Hj & I). rewrite skipn_length in Hj. rewrite nth_skipn in I.
      assert (x < kn l (i + q + j))%Qc as X by (apply G; lia). unfold kn in X. rewrite (nth_indep _ _ 0%Qc), I in X by lia. qlra.
    - intros I. apply (In_nth _ _ 0%Qc) in I as (j & Hj & I). rewrite firstn_length in Hj. rewrite P_Knots.nth_firstn in I by lia.
      assert (kn l j < x)%Qc as X by (apply F; lia). unfold kn in X. rewrite (nth_indep _ _ 0%Qc), I in X by lia. qlra. }
  assert (StronglySorted Qcle kv) as HS by now apply nd_sorted.
  constructor; auto.
  - apply (Count _ _ HS (p + 1) 0); [lia| |lia|].
    + intros j Hj. cbn [Nat.add]. pose proof (M 0 j ltac:(lia)). pose proof (M j p ltac:(lia)). apply Qcle_antisym; qlra.
    + intros j Hj _. pose proof (M (p + 1) j ltac:(lia)). qlra.
  - apply (Count _ _ HS (p + 1) n); [lia| | |lia].
    + intros j Hj. pose proof (M n (n + j) ltac:(lia)). pose proof (M (n + j) (n + p) ltac:(lia)). apply Qcle_antisym; qlra.
    + intros j Hj. pose proof (M j (n - 1) ltac:(lia)). qlra.
  - apply Forall_forall. intros y I. apply (In_nth _ _ (last kv 0%Qc)) in I as (j & Hj & <-). change (nth j kv (last kv 0%Qc)) with (kn kv j).
    pose proof (M 0 j ltac:(lia)). pose proof (M j (n + p) ltac:(lia)). split; qlra.
Qed.

Lemma sorted_insert x l1 l2 : StronglySorted Qcle (l1 ++ l2) -> Forall (fun y => y <= x)%Qc l1 -> Forall (fun y => x <= y)%Qc l2 -> StronglySorted Qcle (l1 ++ x :: l2).
Proof.
  induction l1 as [|y l1 IH]; cbn [app]; intros HS F1 F2; [constructor; auto|]. inversion HS; subst. inversion F1; subst.
  constructor; auto. rewrite Forall_app in *. intuition.
Qed.
Lemma shape_insert p a b l1 l2 x : shape p a b (l1 ++ l2) -> (a < x)%Qc -> (x < b)%Qc ->
  Forall (fun y => y <= x)%Qc l1 -> Forall (fun y => x <= y)%Qc l2 -> shape p a b (l1 ++ x :: l2).
Proof.
  intros [HS HL HH HI HB] A B F1 F2. constructor; auto.
  - now apply sorted_insert.
  - rewrite times_app, times_cons, <- HL, times_app. destruct (Qc_eq_dec x a); [subst; exfalso; qlra|]. lia.
  - rewrite times_app, times_cons, <- HH, times_app. destruct (Qc_eq_dec x b); [subst; exfalso; qlra|]. lia.
  - apply Forall_app in HI as [H1 H2]. apply Forall_app. split; auto. constructor; auto. split; qlra.
Qed.

(** * Basis functions of a part of a knot vector *)
Lemma basis_shift U o s p u : forall i, basis U (o + s) p (o + i) u = basis (fun k => U (o + k)) s p i u.
Proof.
  induction p as [|q IH]; intros i; cbn [basis].
  - destruct (Nat.eqb_spec (o + i) (o + s)), (Nat.eqb_spec i s); auto; lia.
  - rewrite IH. replace (o + i + 1) with (o + (i + 1)) by lia. rewrite IH.
    replace (o + i + S q) with (o + (i + S q)) by lia. replace (o + i + q + 2) with (o + (i + q + 2)) by lia. reflexivity.
Qed.
Lemma kn_window l1 K l2 k : k < length K -> kn (l1 ++ K ++ l2) (length l1 + k) = kn K k.
Proof.
  intros H. rewrite kn_app2 by (rewrite ?app_length; lia). replace (length l1 + k - length l1) with k by lia.
  rewrite kn_app1 by auto. unfold kn. now apply nth_indep.
Qed.
Lemma window p l1 K l2 u i : ax_wf (KnotAxis p K) -> ax_wf (KnotAxis p (l1 ++ K ++ l2)) ->
  (ax_lower (KnotAxis p K) <= u)%Qc ->
  (u < ax_upper (KnotAxis p K))%Qc \/ u = ax_upper (KnotAxis p K) /\ ax_upper (KnotAxis p K) = ax_upper (KnotAxis p (l1 ++ K ++ l2)) ->
  ax_fun (KnotAxis p (l1 ++ K ++ l2)) u i =
  if (length l1 <=? i) && (i <? length l1 + ax_n (KnotAxis p K)) then ax_fun (KnotAxis p K) u (i - length l1) else 0%Qc.
Proof.
  intros WK WB L H. cbn [ax_fun ax_lower ax_upper ax_wf] in *. set (big := l1 ++ K ++ l2) in *. set (o := length l1).
  set (nK := ax_n (KnotAxis p K)) in *. set (nB := ax_n (KnotAxis p big)) in *.
  assert (p < nK) as Hp by apply (ax_n_degree (KnotAxis p K) WK).
  pose proof WK as (LK & NK & _). pose proof WB as (LB & NB & _). pose proof (kn_mono big NB) as M. pose proof (kn_mono K NK) as MK.
  assert (o + nK <= nB) as Hn. { unfold big in LB. rewrite !app_length in LB. fold o in LB. lia. }
  assert (forall k, k < length K -> kn big (o + k) = kn K k) as W by (intros; now apply kn_window).
  assert (u <= kn K nK)%Qc as U1 by (destruct H as [H|[-> _]]; qlra).
  pose proof (find_span_spec K p nK u WK (conj L U1)) as Sp. unfold bspline_basis. set (s := find_span K p nK u) in *. clearbody s.
  destruct Sp as (S1 & S2 & S3 & S4 & S5).
  rewrite (find_span_unique big p nB u (o + s) WB).
  - destruct (Nat.leb_spec o i) as [I|I]; cbn [andb].
    + destruct (Nat.ltb_spec i (o + nK)) as [I'|I'].
      * replace i with (o + (i - o)) at 1 by lia. rewrite basis_shift. apply basis_ext. intros k K1 K2. apply W. lia.
      * rewrite basis_blossom. apply blossom_right. lia.
    + rewrite basis_blossom. apply blossom_left. rewrite repeat_length. lia.
  - split.
    + pose proof (M p (o + p) ltac:(lia)) as X. rewrite W in X by lia. qlra.
    + pose proof (M (o + nK) nB ltac:(lia)) as X. rewrite W in X by lia. qlra.
  - unfold is_span. replace (S (o + s)) with (o + S s) by lia. rewrite !W by lia.
    repeat (split; [lia || assumption|]). destruct S5 as [S5|[S5 S6]]; [now left|]. right. split; [exact S5|].
    destruct H as [H|[_ H]]; [exfalso; rewrite S5, S6 in H; qlra|]. now rewrite S6.
Qed.

Lemma functional_window pre a a' post v1 v2 u t o sigma f :
  length v1 = length pre -> length v2 = length post -> o + ax_n a' <= ax_n a ->
  (forall i, i < ax_n a -> ax_fun a u i = if (o <=? i) && (i <? o + ax_n a') then ax_fun a' t (i - o) else 0%Qc) ->
  (forall d1 i d2, valid_digits (map ax_n pre) d1 -> i < ax_n a' -> valid_digits (map ax_n post) d2 ->
     sigma (undigits (map ax_n (pre ++ a' :: post)) (d1 ++ i :: d2)) =
     undigits (map ax_n (pre ++ a :: post)) (d1 ++ (o + i) :: d2)) ->
  functional (pre ++ a' :: post) (v1 ++ t :: v2) (fun g => f (sigma g)) =
  functional (pre ++ a :: post) (v1 ++ u :: v2) f.
Proof.
  intros L1 L2 Hp Hd Hs. unfold functional. rewrite !sp_basis_app by auto.
  change (sp_basis (a :: post) (u :: v2)) with ((ax_n a, ax_fun a u) :: sp_basis post v2).
  change (sp_basis (a' :: post) (t :: v2)) with ((ax_n a', ax_fun a' t) :: sp_basis post v2).
  rewrite !tensor_axis, sp_basis_length by auto.
  replace (ax_n a) with (o + (ax_n a' + (ax_n a - o - ax_n a'))) at 1 by lia.
  rewrite (seq_app o), (seq_app (ax_n a')), !map_app, !qsum_app. rewrite !Nat.add_0_l.
  rewrite (qsum_zero _ (seq 0 o)).
  2:{ intros i Hi. apply in_seq in Hi. rewrite Hd by lia. destruct (Nat.leb_spec o i); [lia|]. cbn [andb]. ring. }
  rewrite (qsum_zero _ (seq (o + ax_n a') _)).
  2:{ intros i Hi. apply in_seq in Hi. rewrite Hd by lia. destruct (Nat.ltb_spec i (o + ax_n a')); [lia|]. rewrite andb_false_r. ring. }
  rewrite Qcplus_0_l, Qcplus_0_r. replace (seq o (ax_n a')) with (map (fun k => o + k) (seq 0 (ax_n a'))) by (rewrite seq_shift_add; f_equal; lia). rewrite map_map. apply qsum_ext. intros i Hi. apply in_seq in Hi.
  rewrite Hd by lia. destruct (Nat.leb_spec o (o + i)); [|lia]. destruct (Nat.ltb_spec (o + i) (o + ax_n a')); [|lia]. cbn [andb].
  replace (o + i - o) with i by lia. f_equal.
  apply tensor_ext_c. rewrite map_app, !sp_basis_fst by auto.
  intros ix V. unfold valid_digits in V. apply Forall2_app_inv_l in V. destruct V as (i1 & i2 & V1 & V2 & ->).
  assert (Li1 : length i1 = length pre) by (rewrite <- (Forall2_len _ _ _ V1), map_length; auto).
  assert (Li2 : length i2 = length post) by (rewrite <- (Forall2_len _ _ _ V2), map_length; auto).
  rewrite <- Li1.
  rewrite firstn_app, Nat.sub_diag, firstn_all, firstn_O, app_nil_r.
  rewrite skipn_app, skipn_all, Nat.sub_diag. cbn [skipn app].
  rewrite <- !map_app. rewrite !flat_id_undigits by (rewrite !map_length, !app_length; cbn; lia).
  rewrite Hs; auto. lia.
Qed.
