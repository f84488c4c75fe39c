(** Proofs about the view of the parametric domain (parametric_view) and about
    integrals of functions (parametric_function). *)
From Coq Require Import List Arith ZArith Lia Bool QArith Qcanon Sorted Permutation.
From Verif Require Import Base BaseRadix BaseSort BaseQc S_Grid P_Grid S_Spline P_Spline S_Value P_Value S_Knots S_Pieces S_Deriv P_Deriv
  M_Grid M_Core M_Knots M_Bezier M_Extract M_Pieces P_Pieces M_Create M_Integrate S_Integrate P_Integrate.
From Verif Require P_Create P_Knots P_KnotInsert P_Insert W_Create P_Shapes.
Import ListNotations.
Local Open Scope list_scope.
Local Open Scope nat_scope.

(** * Distinct knots *)
Lemma expand_in us m x : length us = length m -> Forall (fun k => 0 < k) m -> In x (expand_knots us m) <-> In x us.
Proof.
  revert m. induction us as [|u us IH]; intros [|k m] L F; try discriminate; [reflexivity|]. injection L as L. inversion F as [|? ? Fk F']; subst.
  rewrite expand_cons, in_app_iff, IH by auto. cbn [In]. split.
  - intros [H|H]; [left; symmetry; now apply repeat_spec in H|auto].
  - intros [->|H]; [left|auto]. destruct k; [lia|now left].
Qed.
Lemma expand_sorted us m : StronglySorted Qclt us -> non_decreasing (expand_knots us m).
Proof.
  intros SS. assert (qsorted (expand_knots us m)) as Q.
  { revert m. induction SS as [|x l SS IH F]; intros [|k m]; try constructor. rewrite expand_cons.
    assert (forall y, In y (expand_knots l m) -> (x <= y)%Qc) as H.
    { intros y I. unfold expand_knots in I. apply in_concat in I as (r & Hr & Hy). apply in_map_iff in Hr as ((z & k') & <- & Hz).
      cbn in Hy. apply repeat_spec in Hy. subst y. apply in_combine_l in Hz. rewrite Forall_forall in F. apply Qclt_le_weak. now apply F. }
    induction k as [|k IHk]; [apply IH|]. cbn [repeat app]. constructor; auto. apply Forall_forall. intros y Hy. apply in_app_iff in Hy as [Hy|Hy]; auto.
    apply repeat_spec in Hy. subst. apply Qcle_refl. }
  revert Q. generalize (expand_knots us m). clear. intros l Q. induction Q as [|x l Q IH F]; intros i j Hij Hj; cbn [length] in *; [lia|].
  destruct i as [|i], j as [|j]; cbn [nth]; try lia; [apply Qcle_refl| |apply IH; lia].
  rewrite Forall_forall in F. apply F, nth_In. lia.
Qed.
Lemma axis_knot_vector p kv us : axis_knots (KnotAxis p kv) us -> knot_vector p (ax_n (KnotAxis p kv)) kv.
Proof.
  intros K. destruct (axis_bounds _ _ K) as (L2 & El & Eu). cbn [ax_lower ax_upper] in El, Eu. pose proof K as (SS & m & E & L & Lm & M0 & M1 & F).
  split; [|split].
  - cbn [ax_n]. rewrite E, expand_length by auto.
    assert (p + 1 + (p + 1) <= list_sum m).
    { destruct m as [|a [|b m]]; cbn [length] in Lm; try lia. cbn [nth] in M0. subst a. rewrite list_sum_cons.
      assert (forall l k, l <> [] -> nth (length l - 1) l 0 = k -> k <= list_sum l) as G.
      { clear. induction l as [|x l IH]; intros k N Hk; [contradiction|]. destruct l as [|y l]; [cbn in *; lia|]. rewrite list_sum_cons.
        specialize (IH k ltac:(discriminate)). cbn [length] in *. replace (S (S (length l)) - 1) with (S (S (length l) - 1)) in Hk by lia. cbn [nth] in Hk. specialize (IH Hk). lia. }
      specialize (G (b :: m) (p + 1) ltac:(discriminate)). cbn [length] in *. replace (S (S (length m)) - 1) with (S (S (length m) - 1)) in M1 by lia. cbn [nth] in M1. specialize (G M1). lia. }
    lia.
  - rewrite E. now apply expand_sorted.
  - rewrite El, Eu. apply sorted_nth; auto; lia.
Qed.
Lemma axis_unique_knots eps a us : (0 < eps)%Qc -> axis_knots a us -> apart eps us -> axis_unique eps a = us.
Proof.
  intros He K A. destruct a as [p|p kv]; [symmetry; apply K|]. cbn [axis_unique]. pose proof (axis_knot_vector p kv us K) as KV.
  pose proof K as (SS & m & E & L & Lm & M0 & M1 & F).
  destruct (P_Knots.unique_knots_exact eps p _ kv He KV) as (S1 & E1 & _).
  { intros x y Hx Hy. rewrite E in Hx, Hy. apply expand_in in Hx, Hy; auto. }
  apply (P_Insert.ssorted_unique Qclt); auto.
  - intros x y X Y. apply (Qclt_not_le _ _ X). now apply Qclt_le_weak.
  - intros x. rewrite E1. split.
    + intros (i & Hi & ->). rewrite (kn_nth _ _ 0%Qc) by (destruct KV as (LK & _); rewrite LK; lia). apply (expand_in us m); auto. rewrite <- E. apply nth_In. destruct KV as (LK & _); rewrite LK; lia.
    + intros Hx. destruct (axis_bounds _ _ K) as (L2 & El & Eu). cbn [ax_lower ax_upper] in El, Eu.
      apply (In_nth _ _ 0%Qc) in Hx as (c & Hc & <-).
      assert (p < ax_n (KnotAxis p kv)) as Hpn.
      { destruct KV as (LK & MK & HK). destruct (le_lt_dec (ax_n (KnotAxis p kv)) p); [|lia]. exfalso. apply (Qclt_not_le _ _ HK).
        rewrite !(kn_nth _ _ 0%Qc) by lia. apply MK; lia. }
      destruct (Nat.eq_dec c 0) as [->|N0]; [exists p; split; [lia|now symmetry]|].
      destruct (Nat.eq_dec c (length us - 1)) as [->|N1]; [exists (ax_n (KnotAxis p kv)); split; [lia|now symmetry]|].
      assert (In (nth c us 0%Qc) kv) as Hin by (rewrite E; apply expand_in; auto; apply nth_In; auto).
      apply (In_nth _ _ 0%Qc) in Hin as (i & Hi & Ei). exists i. rewrite (kn_nth _ _ 0%Qc) by auto. split; [|now symmetry].
      assert (nth 0 us 0 < nth c us 0)%Qc as G0 by (apply sorted_nth; auto; lia).
      assert (nth c us 0 < nth (length us - 1) us 0)%Qc as G1 by (apply sorted_nth; auto; lia).
      destruct KV as (LK & MK & HK). rewrite (kn_nth _ _ 0%Qc) in El by lia. rewrite (kn_nth _ _ 0%Qc) in Eu by lia. split.
      * destruct (le_lt_dec p i) as [|Hl]; auto. exfalso. pose proof (MK i p ltac:(lia) ltac:(lia)) as Q. rewrite Ei, El in Q. now apply Qcle_not_lt in Q.
      * destruct (le_lt_dec i (ax_n (KnotAxis p kv))) as [|Hl]; auto. exfalso. pose proof (MK (ax_n (KnotAxis p kv)) i ltac:(lia) ltac:(lia)) as Q.
        rewrite Ei, Eu in Q. now apply Qcle_not_lt in Q.
Qed.

(** * Axes of the view *)
Definition inner (us : list Qc) : list Qc := removelast (tl us).
Definition view_mults (us : list Qc) : list nat := 2 :: repeat 1 (length us - 2) ++ [2].
Definition view_axis (us : list Qc) : paxis := KnotAxis 1 (expand_knots us (view_mults us)).
Lemma split_knots us : 2 <= length us -> us = nth 0 us 0%Qc :: inner us ++ [nth (length us - 1) us 0%Qc].
Proof.
  intros H. destruct us as [|x us]; [cbn in H; lia|]. unfold inner. cbn [nth tl]. f_equal. cbn [length] in *.
  replace (S (length us) - 1) with (S (length us - 1)) by lia. cbn [nth].
  assert (us <> []) as N by (destruct us; cbn in *; [lia|discriminate]).
  rewrite (app_removelast_last 0%Qc N) at 1. f_equal. f_equal. apply last_nth.
Qed.
Lemma inner_length us : length (inner us) = length us - 2.
Proof.
  unfold inner. destruct us as [|x us]; [reflexivity|]. cbn [tl length]. destruct us as [|y us] using rev_ind; [reflexivity|].
  rewrite removelast_last, app_length. cbn. lia.
Qed.
Lemma view_expand us : 2 <= length us ->
  expand_knots us (view_mults us) = [nth 0 us 0; nth 0 us 0]%Qc ++ inner us ++ [nth (length us - 1) us 0; nth (length us - 1) us 0]%Qc.
Proof.
  intros H. rewrite (split_knots us H) at 1. unfold view_mults. rewrite expand_cons. cbn [repeat app]. f_equal. f_equal.
  rewrite <- inner_length. set (z := nth (length us - 1) us 0%Qc). clearbody z. induction (inner us) as [|x l IH]; [reflexivity|].
  cbn [length repeat app]. rewrite expand_cons. cbn [repeat app]. f_equal. exact IH.
Qed.
Lemma view_mults_length us : 2 <= length us -> length (view_mults us) = length us.
Proof. intros H. unfold view_mults. cbn [length]. rewrite app_length, repeat_length. cbn. lia. Qed.
Lemma view_mults_last us : nth (length (view_mults us) - 1) (view_mults us) 0 = 2.
Proof.
  unfold view_mults. cbn [length]. rewrite app_length, repeat_length. cbn [length]. replace (S (length us - 2 + 1) - 1) with (S (length us - 2)) by lia. cbn [nth].
  rewrite app_nth2 by (rewrite repeat_length; lia). rewrite repeat_length, Nat.sub_diag. reflexivity.
Qed.
Lemma view_mults_pos us k : In k (view_mults us) -> 1 <= k.
Proof. unfold view_mults. intros [<-|H]; [lia|]. apply in_app_iff in H as [H|[<-|[]]]; [|lia]. apply repeat_spec in H. lia. Qed.
Lemma view_bezier us : StronglySorted Qclt us -> 2 <= length us -> piecewise_bezier 1 (expand_knots us (view_mults us)) us (view_mults us).
Proof.
  intros SS L. pose proof (view_mults_length us L) as Lm. unfold piecewise_bezier. repeat split; auto; try lia.
  - apply view_mults_last.
  - apply (view_mults_pos us), nth_In. auto.
  - assert (1 <= nth i (view_mults us) 0) by (apply (view_mults_pos us), nth_In; auto). lia.
Qed.
Lemma view_axis_knots us : StronglySorted Qclt us -> 2 <= length us -> axis_knots (view_axis us) us.
Proof.
  intros SS L. split; auto. exists (view_mults us). pose proof (view_mults_length us L) as Lm. repeat split; auto; try lia.
  - apply view_mults_last.
  - apply Forall_forall. intros k Hk. apply view_mults_pos in Hk. lia.
Qed.
Lemma start_axis us : length us = 2 -> P_Shapes.segment (nth 0 us 0, nth (length us - 1) us 0)%Qc = view_axis us.
Proof.
  intros H. unfold P_Shapes.segment, view_axis. rewrite view_expand by lia. destruct (inner us) as [|x l] eqn:E; [reflexivity|].
  pose proof (inner_length us) as L. rewrite E, H in L. discriminate L.
Qed.
Lemma nd_qsorted l : non_decreasing l -> qsorted l.
Proof. apply P_KnotInsert.nd_sorted. Qed.
Lemma inserted_axis us kv : StronglySorted Qclt us -> 2 <= length us -> non_decreasing kv ->
  Permutation kv ([nth 0 us 0; nth 0 us 0; nth (length us - 1) us 0; nth (length us - 1) us 0]%Qc ++ inner us) -> kv = expand_knots us (view_mults us).
Proof.
  intros SS L N P. apply sorted_perm_eq.
  - now apply nd_qsorted.
  - now apply nd_qsorted, expand_sorted.
  - rewrite P, view_expand by auto. cbn [app]. do 2 apply perm_skip. rewrite Permutation_app_comm. reflexivity.
Qed.

(** * The view *)
Definition start_axis_of (us : list Qc) : paxis := P_Shapes.segment (nth 0 us 0, nth (length us - 1) us 0)%Qc.
Definition view_ok (pre rest : list (list Qc)) (v : spline) : Prop :=
  sp_axes v = map view_axis pre ++ map start_axis_of rest /\ sp_wf v /\ uniform v /\ sp_weights v = None /\
  dim_of (sp_cps v) = length pre + length rest /\
  forall us d, sp_domain v us -> d < length pre + length rest -> sp_value v us d = nth d us 0%Qc.
Definition proper (us : list Qc) : Prop := StronglySorted Qclt us /\ 2 <= length us.

Lemma axis_proper axes knots : Forall2 axis_knots axes knots -> Forall proper knots.
Proof. induction 1 as [|a us axes knots H K IH]; constructor; auto. split; [apply H|apply (axis_bounds a us H)]. Qed.
Lemma start_axis_ends us : proper us -> ax_lower (start_axis_of us) = nth 0 us 0%Qc /\ ax_upper (start_axis_of us) = nth (length us - 1) us 0%Qc.
Proof. intros _. split; reflexivity. Qed.
Lemma view_axis_ends us : proper us -> ax_lower (view_axis us) = nth 0 us 0%Qc /\ ax_upper (view_axis us) = nth (length us - 1) us 0%Qc.
Proof. intros [SS L]. destruct (axis_bounds _ _ (view_axis_knots us SS L)) as (_ & A & B). auto. Qed.
Lemma start_axis_eq us : proper us -> inner us = [] -> start_axis_of us = view_axis us.
Proof.
  intros [_ L] E. apply start_axis. pose proof (inner_length us) as H. rewrite E in H. cbn in H. lia.
Qed.
Lemma inner_in us x : proper us -> In x (inner us) -> (nth 0 us 0 < x)%Qc /\ (x < nth (length us - 1) us 0)%Qc.
Proof.
  intros [SS L] H. rewrite (split_knots us L) in SS. inversion SS as [|? ? SS' F]; subst. rewrite Forall_forall in F. split; [apply F, in_app_iff; auto|].
  clear - SS' H. induction (inner us) as [|y l IH]; [contradiction|]. cbn [app] in SS'. inversion SS' as [|? ? S2 F2]; subst. destruct H as [->|H]; [|now apply IH].
  rewrite Forall_forall in F2. apply F2, in_app_iff. right. now left.
Qed.
Lemma inner_sorted us : proper us -> StronglySorted Qclt (inner us).
Proof.
  intros [SS L]. rewrite (split_knots us L) in SS. inversion SS as [|? ? SS' _]; subst. clear - SS'. induction (inner us) as [|y l IH]; constructor;
    cbn [app] in SS'; inversion SS' as [|? ? S2 F2]; subst; auto. apply Forall_app in F2. apply F2.
Qed.
Lemma firstn_skipn_mid {A} (a : list A) x b : firstn (length a) (a ++ x :: b) = a /\ skipn (S (length a)) (a ++ x :: b) = b.
Proof. induction a as [|y a [H1 H2]]; cbn; [auto|]. split; [now f_equal|exact H2]. Qed.
Lemma domain_same pre a a' post us : ax_lower a = ax_lower a' -> ax_upper a = ax_upper a' ->
  Forall2 ax_domain (pre ++ a :: post) us -> Forall2 ax_domain (pre ++ a' :: post) us.
Proof.
  intros E1 E2. revert us. induction pre as [|b pre IH]; cbn [app]; intros us H; inversion H; subst; constructor; auto.
  unfold ax_domain in *. now rewrite <- E1, <- E2.
Qed.
Lemma insert_step ins pre us rest v : inserting ins -> Forall proper (pre ++ us :: rest) -> view_ok pre (us :: rest) v ->
  exists v', match inner us with [] => Some v | q => ins v (length pre) q end = Some v' /\ view_ok (pre ++ [us]) rest v'.
Proof.
  intros HI FP (Ea & W & U & Ew & Ed & V). apply Forall_app in FP as [Fp FP]. inversion FP as [|? ? Pu Fr]; subst.
  destruct (inner us) as [|x l] eqn:Ei.
  - exists v. split; auto. split; [|split; [auto|split; [auto|split; [auto|split; [rewrite app_length; cbn in *; lia|]]]]].
    + rewrite Ea, map_app, <- app_assoc. cbn [map app]. now rewrite start_axis_eq.
    + intros ts d D Hd. apply V; auto. rewrite app_length in Hd. cbn in *. lia.
  - rewrite <- Ei.
    assert (nth_error (sp_axes v) (length pre) = Some (start_axis_of us)) as En.
    { rewrite Ea, nth_error_app2 by (rewrite map_length; lia). rewrite map_length, Nat.sub_diag. reflexivity. }
    assert (nth 0 us 0 < nth (length us - 1) us 0)%Qc as Hab by (destruct Pu; apply sorted_nth; auto; lia).
    destruct (HI v (length pre) 1 [nth 0 us 0; nth 0 us 0; nth (length us - 1) us 0; nth (length us - 1) us 0]%Qc (inner us)) as (v' & kv' & E1 & P1 & N1 & A1 & W1 & U1 & Ew1 & Ed1 & V1); auto.
    + unfold knotted. rewrite Ea. apply Forall_app. split; apply Forall_map, Forall_forall; intros; exact I.
    + repeat split; cbn; auto.
    + rewrite Ei. discriminate.
    + now apply inner_sorted.
    + intros y Hy. apply inner_in in Hy as [Y1 Y2]; auto. split; [exact Y1|]. split; [exact Y2|].
      intros [<-|[<-|[<-|[<-|[]]]]]; revert Y1 Y2; clear; intros; qlra.
    + exists v'. split; auto. destruct Pu as [SS L]. apply inserted_axis in P1; auto. subst kv'.
      assert (sp_axes v' = map view_axis (pre ++ [us]) ++ map start_axis_of rest) as Ea'.
      { rewrite A1, Ea. cbn [map]. destruct (firstn_skipn_mid (map view_axis pre) (start_axis_of us) (map start_axis_of rest)) as [H1 H2].
        rewrite map_length in H1, H2. rewrite H1, H2, map_app, <- app_assoc. reflexivity. }
      split; [exact Ea'|]. split; [auto|]. split; [auto|]. split; [auto|]. split; [rewrite Ed1, Ed, app_length; cbn; lia|].
      intros ts d D Hd. rewrite app_length in Hd. cbn [length] in *.
      assert (sp_domain v ts) as Dv.
      { unfold sp_domain in *. rewrite Ea' in D. rewrite Ea. rewrite map_app, <- app_assoc in D. cbn [map app] in D. cbn [map].
        revert D. destruct (view_axis_ends us) as [X1 X2]; [split; auto|]. apply domain_same; [rewrite X1|rewrite X2]; reflexivity. }
      rewrite V1 by (auto; lia). apply V; auto. lia.
Qed.
Lemma insert_loop O rest : inserting (g_insert O) -> forall pre v, Forall proper (pre ++ rest) -> view_ok pre rest v ->
  exists v', fold_left (fun v iq => match v with
                               | None => None
                               | Some v => match snd iq with [] => Some v | q => g_insert O v (fst iq) q end
                               end)
          (combine (seq (length pre) (length rest)) (map inner rest)) (Some v) = Some v' /\ view_ok (pre ++ rest) [] v'.
Proof.
  intros HI. induction rest as [|us rest IH]; intros pre v F H.
  - exists v. split; [reflexivity|]. now rewrite app_nil_r.
  - destruct (insert_step (g_insert O) pre us rest v HI F H) as (v1 & E1 & H1). cbn [length seq map combine fold_left fst snd].
    destruct (IH (pre ++ [us]) v1) as (v2 & E2 & H2); auto.
    + now rewrite <- app_assoc.
    + rewrite <- app_assoc in H2. exists v2. split; auto. rewrite app_length in E2. cbn [length] in E2. rewrite Nat.add_1_r in E2.
      rewrite <- E2. f_equal. destruct (inner us); exact E1.
Qed.
Lemma nth_map_lt {A B} (f : A -> B) l d x y : d < length l -> nth d (map f l) x = f (nth d l y).
Proof. revert d. induction l as [|a l IH]; intros [|d] H; cbn [length map nth] in *; try lia; auto. apply IH. lia. Qed.
Lemma view_start limit axes knots : Forall2 axis_knots axes knots -> 1 <= length knots <= limit ->
  Forall (fun us => (qc (-1) 1 <= nth 0 us 0)%Qc) knots ->
  exists v, from_bounds limit (map ax_lower axes) (map ax_upper axes) (map ax_lower axes) (map ax_upper axes) = Some v /\ view_ok [] knots v.
Proof.
  intros K Hn Hlo. set (n := length knots) in *. pose proof (Forall2_len _ _ _ K) as LK.
  set (lo := map (fun us => nth 0 us 0%Qc) knots). set (hi := map (fun us => nth (length us - 1) us 0%Qc) knots).
  assert (map ax_lower axes = lo /\ map ax_upper axes = hi) as [-> ->].
  { unfold lo, hi. clear - K. induction K as [|a us axes knots H K [IH1 IH2]]; [auto|]. destruct (axis_bounds a us H) as (_ & A & B). cbn [map]. split; congruence. }
  assert (length lo = n) as Llo by (unfold lo; apply map_length). assert (length hi = n) as Lhi by (unfold hi; apply map_length).
  assert (length hi = length lo) as L by congruence.
  assert (combine (firstn (length lo) lo) (firstn (length lo) hi) = map (fun us => (nth 0 us 0, nth (length us - 1) us 0)%Qc) knots) as Ep.
  { rewrite firstn_all. rewrite L at 1 || idtac. rewrite <- L, firstn_all. unfold lo, hi. apply combine_map2. }
  destruct (box limit (row_sub hi lo)) as [b|] eqn:Eb.
  2:{ exfalso. assert (exists s, box limit (row_sub hi lo) = Some s) as (s & E'); [|congruence]. apply W_Create.C47_box_holds. rewrite (P_Shapes.size_length lo hi L). lia. }
  assert (forall d, d < length lo -> (qc (-1) 1 <= nth d lo 0)%Qc /\ (nth d lo 0 < nth d hi 0)%Qc) as Hb.
  { intros d Hd. rewrite Llo in Hd. pose proof (axis_proper _ _ K) as FP. rewrite Forall_forall in FP, Hlo.
    unfold lo, hi. rewrite !(nth_map_lt _ knots d _ []) by exact Hd.
    split; [apply Hlo, nth_In; exact Hd|]. destruct (FP (nth d knots [])) as [SS L2]; [apply nth_In; exact Hd|]. apply sorted_nth; auto; lia. }
  destruct (P_Shapes.from_bounds_eq limit lo hi lo hi L b Eb) as [E1 St]; try lia.
  { rewrite Ep. apply Forall_map. pose proof (axis_proper _ _ K) as FP. rewrite Forall_forall in *. intros us Hu. cbn [fst snd]. split; [now apply Hlo|].
    destruct (FP us Hu). apply Qclt_le_weak. apply sorted_nth; auto; lia. }
  destruct (W_Create.C63_bounds_partial_holds limit lo hi lo hi L ltac:(lia)) as (s & E2 & D & V); try lia; auto.
  assert (s = P_Shapes.bounds_spline lo hi lo (sp_cps b)) as Es by congruence.
  exists s. split; auto.
  assert (sp_axes s = map start_axis_of knots) as Ea.
  { rewrite Es. cbn [P_Shapes.bounds_spline sp_axes]. rewrite Ep, map_map. reflexivity. }
  pose proof (P_Shapes.box_spec limit (row_sub hi lo)) as B. rewrite Eb in B. rewrite (P_Shapes.size_length lo hi L) in B.
  destruct B as (_ & (_ & (_ & Lc & _) & Fr & _) & Eab & _). rewrite (P_Shapes.size_length lo hi L) in *.
  assert (Forall (fun p => length p = n) (sp_cps s)) as Fs.
  { rewrite Es. cbn [P_Shapes.bounds_spline sp_cps]. apply Forall_map. eapply Forall_impl; [|exact Fr]. cbv beta. intros p Hp. rewrite P_Create.row_add_length. lia. }
  assert (sp_wf s) as Ws.
  { split; [|split].
    - rewrite Ea. apply Forall_map. pose proof (axis_proper _ _ K) as FP. eapply Forall_impl; [|exact FP]. intros us [SS L2]. apply P_Shapes.segment_wf. cbn. apply sorted_nth; auto; lia.
    - unfold sp_res. rewrite Ea, Es. cbn [P_Shapes.bounds_spline sp_cps]. rewrite map_length, Lc. unfold sp_res. rewrite Eab, Llo, P_Shapes.map_repeat, map_map.
      rewrite !fold_right_mul_prodn. f_equal. unfold n. clear. induction knots; cbn; f_equal; auto.
    - rewrite Es. exact I. }
  assert (sp_cps s <> []) as Ns.
  { destruct Ws as (_ & Wl & _). intros Z. rewrite Z in Wl. unfold sp_res in Wl. rewrite Ea, map_map, fold_right_mul_prodn in Wl. clear - Wl.
    assert (0 < prodn (map (fun x => ax_n (start_axis_of x)) knots)) as H; [|cbn [length] in Wl; lia].
    clear. induction knots as [|us knots IH]; [cbn; lia|]. cbn [map prodn]. change (ax_n (start_axis_of us)) with 2. cbn [prodn fold_right] in *. lia. }
  assert (dim_of (sp_cps s) = n) as Ed.
  { unfold dim_of. destruct (sp_cps s) as [|p0 cps]; [contradiction|]. inversion Fs; subst. cbn. auto. }
  split; [exact Ea|]. split; [auto|]. split; [unfold uniform; now rewrite Ed|]. split; [now rewrite Es|]. split; [exact Ed|].
  cbn [length Nat.add]. fold n. intros us d Du Hd. rewrite V by (auto; lia). destruct (Hb d ltac:(lia)) as [_ Hlt]. field. intro Z.
  revert Hlt Z. set (x := nth d hi 0%Qc). set (y := nth d lo 0%Qc). clearbody x y. clear. intros. qlra.
Qed.
Lemma view_spec O limit eps s knots : inserting (g_insert O) -> (0 < eps)%Qc -> knotted s -> Forall2 axis_knots (sp_axes s) knots -> Forall (apart eps) knots ->
  1 <= length knots <= limit -> Forall (fun us => (qc (-1) 1 <= nth 0 us 0)%Qc) knots ->
  exists v, parametric_view O limit eps s = Some v /\ view_ok knots [] v.
Proof.
  intros HI He Hk K A Hn Hlo. unfold parametric_view. destruct (view_start limit (sp_axes s) knots K Hn Hlo) as (v & Ev & Hv).
  cbv zeta. rewrite Ev, has_knots_knotted by auto.
  replace (map (fun a => removelast (tl (axis_unique eps a))) (sp_axes s)) with (map inner knots).
  - rewrite (Forall2_len _ _ _ K). destruct (insert_loop O knots HI [] v) as (v' & E' & H'); auto; [cbn; eapply axis_proper; eauto|]. cbn [app length] in *. eauto.
  - clear - He K A. induction K as [|a us axes knots H K IH]; [reflexivity|]. inversion A; subst. cbn [map]. rewrite (axis_unique_knots eps a us) by auto. f_equal. auto.
Qed.

(** * Integrals of functions *)
Lemma view_refinement knots v : Forall proper knots -> view_ok knots [] v -> bezier_refinement v v knots /\ Forall2 axis_knots (sp_axes v) knots.
Proof.
  intros F (Ea & W & _ & Ew & _). cbn [map] in Ea. rewrite app_nil_r in Ea. split.
  - split; [auto|]. split; [|split; [auto|split; [|auto]]].
    + exists (map (fun us => (us, view_mults us)) knots). split.
      * rewrite Ea. clear - F. induction F as [|us knots [SS L] F IH]; constructor; auto. cbn [fst snd]. do 2 eexists. split; [reflexivity|]. now apply view_bezier.
      * rewrite map_map. apply map_id.
    + unfold positive. now rewrite Ew.
  - rewrite Ea. clear - F. induction F as [|us knots [SS L] F IH]; constructor; auto. now apply view_axis_knots.
Qed.
Lemma point_list (q : list Qc) : map (fun d => nth d q 0%Qc) (seq 0 (length q)) = q.
Proof. induction q as [|x q IH]; [reflexivity|]. cbn [length seq map nth]. f_equal. rewrite <- seq_shift, map_map. exact IH. Qed.
Lemma prodn_pos_axes axes : Forall (fun a => exists p, a = BezierAxis p) axes -> 0 < prodn (map ax_n axes).
Proof. induction 1 as [|a axes [p ->] F IH]; [cbn; lia|]. cbn [map prodn fold_right ax_n] in *. nia. Qed.
Lemma function_spec O limit eps s f orders knots J quad : int_contract O -> (0 < eps)%Qc ->
  sp_wf s -> positive s -> sp_axes s <> [] -> length (sp_axes s) <= dim_of (sp_cps s) ->
  Forall2 axis_knots (sp_axes s) knots -> Forall (apart eps) knots ->
  (bezier_axes s \/ knotted s /\ length (sp_axes s) <= limit /\ Forall (fun us => (qc (-1) 1 <= nth 0 us 0)%Qc) knots) ->
  derivatives s J -> quadrature O s orders = Some quad ->
  forall m, (forall u, length (f u) = m) ->
  parametric_function O limit eps s f orders =
  Some (map (fun d => unscaled quad knots (fun u => nth d (f u) 0 * measure (g_sqrt O) (length (sp_axes s)) (dim_of (sp_cps s)) (J u))%Qc) (seq 0 m)).
Proof.
  intros (G & R & HI & Id) He W P Ne Ld K A Hc HJ Eq m Hm. unfold parametric_function. destruct (integral_measure_some O s Ld) as (meas & Em). rewrite Em, Eq.
  destruct (integral_measure_spec O s meas Em) as [_ M]. pose proof (quadrature_good O s orders quad G Ne Eq) as (Nq & Hq & _).
  pose proof (Forall2_len _ _ _ K) as LK. cbv zeta.
  replace (match quad with [] => 0 | tw :: _ => length (f (fst tw)) end) with m by (destruct quad; [contradiction|now rewrite Hm]).
  assert (forall c t, below (counts knots) c -> length t = length (sp_axes s) -> unit_point t ->
    meas s (point_of (element knots c) t) = measure (g_sqrt O) (length (sp_axes s)) (dim_of (sp_cps s)) (J (point_of (element knots c) t))) as DJ.
  { intros c t Hc' Lt U. assert (length t = length knots) as Ltk by lia. destruct (element_inside _ _ c t K Hc' Ltk U) as [I D].
    rewrite M. apply measure_ext; auto. intros d j Hd Hj. apply deriv_is; auto. }
  destruct Hc as [Hb|(Hk & Hl & Hlo)].
  - rewrite has_knots_bezier by auto. f_equal. apply map_ext. intros d. pose proof (bezier_knots_trivial s knots Hb K) as Ek. rewrite Ek at 1. rewrite unscaled_trivial by apply Hq.
    apply qsum_ext. intros tw Ht. destruct (Hq tw Ht) as [Lt U]. f_equal. f_equal.
    specialize (DJ (repeat 0 (length (sp_axes s))) (fst tw)). rewrite Ek in DJ.
    assert (element (repeat [0; 1]%Qc (length (sp_axes s))) (repeat 0 (length (sp_axes s))) = repeat (0, 1)%Qc (length (sp_axes s))) as Ee.
    { generalize (length (sp_axes s)). intros k. induction k as [|k IH]; [reflexivity|]. cbn [repeat]. rewrite element_cons by (cbn; lia). now rewrite IH. }
    rewrite Ee, point_trivial in DJ by auto. apply DJ; auto. unfold counts. rewrite P_Shapes.map_repeat. cbn. clear. induction (length (sp_axes s)); constructor; auto.
  - rewrite has_knots_knotted by auto. destruct (view_spec O limit eps s knots HI He Hk K A) as (v & Ev & Hv); auto.
    { split; [|lia]. destruct knots; [destruct (sp_axes s); [contradiction|discriminate LK]|cbn; lia]. }
    rewrite Ev. pose proof (axis_proper _ _ K) as FP. destruct (view_refinement knots v FP Hv) as [Rv Kv].
    pose proof Hv as (Ea & Wv & Uv & Ewv & Edv & Vv). cbn [length] in Edv, Vv. rewrite Nat.add_0_r in Edv, Vv.
    pose proof Rv as (_ & (um & BF & _) & _). unfold beziers. rewrite (Id v um BF).
    destruct (pieces_of eps v v knots He Rv Kv A) as (bs & Eb & Lb & H). rewrite Eb. f_equal. apply map_ext. intros d.
    unfold unscaled. rewrite elements_sum. apply pieces_sum; auto. intros c Hc. destruct (H c Hc) as (b & Hb & Wb & Pb & Fb & La & Vb). exists b. split; auto.
    pose proof (Forall2_len _ _ _ Kv) as LKv.
    assert (dim_of (sp_cps b) = length knots) as Edb.
    { pose proof (piece_rows eps v bs b (length knots) Eb (nth_error_In _ _ Hb)) as F. unfold uniform in Uv. rewrite Edv in Uv. specialize (F Uv).
      destruct Wb as (_ & Wl & _). pose proof (prodn_pos_axes _ Fb) as Pp. unfold sp_res in Wl. rewrite fold_right_mul_prodn in Wl.
      unfold dim_of. destruct (sp_cps b) as [|p0 cps]; [cbn [length] in Wl; lia|]. now inversion F. }
    apply qsum_ext. intros tw Ht. destruct (Hq tw Ht) as [Lt U]. rewrite Edb.
    pose proof (below_len _ _ Hc) as Lc. rewrite counts_length in Lc.
    replace (map (sp_value b (fst tw)) (seq 0 (length knots))) with (point_of (element knots c) (fst tw)).
    + now rewrite (DJ c) by auto.
    + assert (length (point_of (element knots c) (fst tw)) = length knots) as Lp by (rewrite point_of_length; rewrite ?element_length; lia).
      rewrite <- (point_list (point_of (element knots c) (fst tw))). rewrite Lp. apply map_ext_in. intros i Hi. apply in_seq in Hi. symmetry. rewrite Vb by (auto; lia).
      apply Vv; [|lia]. apply (element_inside (sp_axes v) knots c (fst tw)); auto. lia.
Qed.

(** * Rules of given orders *)
Lemma orders_unique s orders os : orders_of s orders os -> quad_orders s orders = Some os.
Proof.
  intros [L H]. unfold quad_orders. destruct orders as [zs|].
  - destruct H as [<- F]. rewrite map_length, L, Nat.eqb_refl. cbn [andb].
    replace (forallb _ _) with true.
    + f_equal. rewrite map_map. rewrite <- (map_id os) at 2. apply map_ext. intros o. apply Nat2Z.id.
    + symmetry. apply forallb_forall. intros z Hz. apply in_map_iff in Hz as (o & <- & Ho). rewrite Forall_forall in F. apply F in Ho. apply Z.ltb_lt. lia.
  - f_equal. cbv zeta in H. clear L. revert H. generalize (length (sp_axes s)) as n. intros n H. induction H as [|a o axes os [He Ho] H IH]; [reflexivity|]. cbn [map]. f_equal; auto. cbv zeta in *.
    set (e := ax_degree a * n + 1 + match sp_weights s with Some _ => 2 | None => 0 end) in *. pose proof (Nat.div_mod_eq (e + 1 + 1) 2).
    pose proof (Nat.mod_upper_bound (e + 1 + 1) 2 ltac:(lia)). lia.
Qed.
Lemma quadrature_some O s orders os : gaussian (g_leggauss O) -> sp_axes s <> [] -> orders_of s orders os ->
  exists quad, quadrature O s orders = Some quad /\ Permutation quad (product_rule (map (unit_rule (g_leggauss O)) os)).
Proof.
  intros G N H. pose proof (orders_unique s orders os H) as E.
  assert (exists quad, quadrature O s orders = Some quad) as [quad Eq].
  { unfold quadrature. rewrite E. unfold cartesian_product. destruct H as [L _]. destruct os as [|o os]; [destruct (sp_axes s); [contradiction|discriminate L]|].
    cbn [map]. eauto. }
  exists quad. split; auto. destruct (quadrature_rule O s orders quad G N Eq) as (os' & H' & P). apply orders_unique in H'. rewrite E in H'. injection H' as <-. exact P.
Qed.
Lemma axis_ends a us : axis_knots a us -> us <> [] /\ nth 0 us 0%Qc = ax_lower a /\ nth (length us - 1) us 0%Qc = ax_upper a.
Proof. intros K. apply axis_bounds in K as (L & -> & ->). split; auto. intros ->. cbn in L. lia. Qed.
Lemma quad_total leg os : gaussian leg -> Forall (fun o => 0 < o) os -> qsum (map snd (product_rule (map (unit_rule leg) os))) = 1%Qc.
Proof.
  intros G F. induction F as [|o os Ho F IH]; [reflexivity|]. cbn [map product_rule]. rewrite qsum_flat_map.
  transitivity (qsum (map (fun xw : Qc * Qc => snd xw * 1) (unit_rule leg o)))%Qc.
  - apply qsum_ext. intros xw _. rewrite map_map. cbn [snd]. rewrite qsum_map_mul_l, IH. reflexivity.
  - destruct (G o Ho) as (_ & L & _ & S). unfold unit_rule. rewrite map_map. cbn [snd].
    rewrite (qsum_ext _ (fun xw : Qc * Qc => snd xw * qc 1 2)%Qc) by (intros; ring). rewrite qsum_map_mul_r.
    rewrite combine_split_snd by exact L. rewrite S. apply Qc_is_canon. reflexivity.
Qed.
Lemma orders_pos s orders os : orders_of s orders os -> Forall (fun o => 0 < o) os.
Proof. intros [_ H]. destruct orders; [apply H|]. cbv zeta in H. induction H as [|a o axes os [_ Ho] H IH]; constructor; auto. Qed.
Lemma unscaled_const quad knots m F : qsum (map snd quad) = 1%Qc ->
  (forall e tw, In e (elements knots) -> In tw quad -> F (point_of e (fst tw)) = m) ->
  unscaled quad knots F = (m * inj (length (elements knots)))%Qc.
Proof.
  intros Hq H. unfold unscaled. rewrite (qsum_ext _ (fun _ => m)).
  - rewrite qsum_const. ring.
  - intros e He. rewrite (qsum_ext _ (fun tw : list Qc * Qc => m * snd tw)%Qc) by (intros tw Ht; now rewrite H by auto). rewrite qsum_map_mul_l, Hq. ring.
Qed.
Lemma unit_sizes knots : Forall (fun us => forall x y, In (x, y) (combine us (tl us)) -> (y - x = 1)%Qc) knots -> forall e, In e (elements knots) -> size_of e = 1%Qc.
Proof.
  induction 1 as [|us knots H F IH]; intros e He; [destruct He as [<-|[]]; reflexivity|]. cbn [elements] in He. apply in_flat_map in He as ([x y] & Hxy & He).
  apply in_map_iff in He as (e' & <- & He'). unfold size_of. cbn [fold_right fst snd]. fold (size_of e'). rewrite (H x y Hxy), (IH e' He'). ring.
Qed.
Lemma spline_derivatives s : sp_wf s -> positive s -> derivatives s (fun u d j => sp_deriv s j u d).
Proof.
  intros W P u I d j Hd Hj. pose proof (Forall2_len _ _ _ I) as L. apply der_is_deriv. apply value_deriv; auto; [lia|]. apply pos_ne, denominator_pos; auto.
  destruct W as [W _]. unfold sp_domain. clear - W I. induction I as [|x y axes us H I IH]; constructor; inversion W; subst; auto. now apply inside_domain.
Qed.
