(** Proofs about lines, boxes and arcs. *)
From Coq Require Import List Arith ZArith Lia Bool QArith Qcanon Qround Sorted.
From Verif Require Import Base BaseRadix BaseQc S_Grid P_Grid S_Spline P_Spline S_Value P_Value M_Core S_Core P_Core
  M_Files S_Files P_Files M_Bezier P_Bezier M_Elevate P_Elevate S_Knots P_Knots S_Pieces P_Pieces M_Create S_Create P_Create P_Revolve.
Import ListNotations.
Local Open Scope list_scope.
Local Open Scope nat_scope.

Lemma make_storable limit s i s' degs kvs cps ws : complete (name_of s) i degs kvs cps ws ->
  make limit s i = Some s' -> storable limit s'.
Proof.
  intros C H. apply make_built in H. apply (construct_accepts limit _ _ _ _ _ _ C) in H as (A & B & D).
  now exists degs, kvs, cps, ws.
Qed.

(** * Lines *)
Definition line_breaks (n : nat) : list Qc := map (fun i => (inj i / inj n)%Qc) (seq 0 (n + 1)).
Lemma inj_pos n : 1 <= n -> (0 < inj n)%Qc.
Proof. intros. change 0%Qc with (inj 0). apply inj_lt. lia. Qed.
Lemma inj_neq n : 1 <= n -> inj n <> 0%Qc.
Proof. intros H E. pose proof (inj_pos n H) as P. rewrite E in P. discriminate P. Qed.
Lemma line_sorted n : 1 <= n -> StronglySorted Qclt (line_breaks n).
Proof.
  intros H. apply sorted_map_seq. intros i _ _. pose proof (inj_pos n H). pose proof (inj_lt i (S i) ltac:(lia)).
  unfold Qcdiv. apply Qcmult_lt_compat_r; auto. now apply Qc_inv_pos.
Qed.
Lemma line_knots n (points : list (list Qc)) : 1 <= n -> length points = n + 1 ->
  [0%Qc] ++ linspace01 (length points) ++ [1%Qc] = expand_knots (line_breaks n) (joined 1 n).
Proof.
  intros H L. unfold linspace01, line_breaks. rewrite L. replace (n + 1 - 1) with n by lia.
  rewrite map_seq_ends by auto. rewrite expand_joined by (rewrite ?map_length, ?seq_length; auto).
  assert (inj 0 / inj n = 0)%Qc as ->. { change (inj 0) with 0%Qc. unfold Qcdiv. ring. }
  assert (inj n / inj n = 1)%Qc as ->. { field. now apply inj_neq. }
  cbn [repeat Nat.add app]. f_equal. f_equal. rewrite <- app_assoc. f_equal.
  generalize (map (fun i => inj i / inj n)%Qc (seq 1 (n - 1))). intros l. induction l as [|x l IH]; cbn; congruence.
Qed.

Lemma functional_axis a t f : functional [a] [t] f = qsum (map (fun j => ax_fun a t j * f j)%Qc (seq 0 (ax_n a))).
Proof.
  etransitivity; [exact (functional_snoc [] a [] t f eq_refl)|]. apply qsum_ext. intros j _. f_equal.
  unfold functional. cbn. f_equal. lia.
Qed.
Lemma line_high n : 1 <= n -> Forall (fun k => (qc (-1) 1 <= k)%Qc) (expand_knots (line_breaks n) (joined 1 n)).
Proof.
  intros H. assert (forall x, In x (line_breaks n) -> (qc (-1) 1 <= x)%Qc) as F.
  { intros x Hx. unfold line_breaks in Hx. apply in_map_iff in Hx as (i & <- & _).
    apply Qcle_trans with 0%Qc; [unfold Qcle, Qle; vm_compute; discriminate|].
    unfold Qcdiv. rewrite <- (Qcmult_0_l (/ inj n)). apply Qcmult_le_compat_r.
    - change 0%Qc with (inj 0). apply inj_le. lia.
    - apply Qclt_le_weak, Qc_inv_pos, inj_pos; auto. }
  revert F. generalize (line_breaks n) (joined 1 n). clear. intros us ms F. apply Forall_forall.
  revert ms. induction us as [|x us IH]; intros ms k Hk.
  - destruct ms; cbn in Hk; easy.
  - destruct ms as [|m ms]; [cbn in Hk; easy|]. rewrite expand_cons in Hk. apply in_app_or in Hk as [Hk|Hk].
    + apply repeat_spec in Hk as ->. apply F. now left.
    + apply (IH ltac:(intros; apply F; now right) ms k Hk).
Qed.
Lemma line_consistent (points : list (list Qc)) dim n : 0 < dim -> Forall (fun p => length p = dim) points -> 1 <= n -> length points = n + 1 ->
  complete CBSpline (line points) [1%Z] (Some [expand_knots (line_breaks n) (joined 1 n)]) points None /\
  consistent [1%Z] (Some [expand_knots (line_breaks n) (joined 1 n)]) points None.
Proof.
  intros Hd F Hn L. split.
  - unfold complete, line. cbn [in_deg in_cps in_kvs in_ws]. rewrite (line_knots n) by auto. repeat (split; [easy|]). easy.
  - assert (length (line_breaks n) = n + 1) as Lb by (unfold line_breaks; now rewrite map_length, seq_length).
    destruct (joined_n 1 n _ _ ltac:(lia) Hn Lb (line_sorted n Hn) eq_refl) as [_ K].
    split; [discriminate|]. split; [|split; [now exists dim|split; [|easy]]].
    + constructor; [|constructor]. apply (joined_fit 1 n (line_breaks n)); auto using line_sorted.
    + cbn [wanted]. rewrite K. lia.
Qed.
Lemma line_spec limit points dim n : 0 < dim -> Forall (fun p => length p = dim) points -> 1 <= n -> length points = n + 1 ->
  1 <= limit ->
  make_line limit points = Some (Spl [KnotAxis 1 (expand_knots (line_breaks n) (joined 1 n))] points None).
Proof.
  intros Hd F Hn L Hl. destruct (line_consistent points dim n Hd F Hn L) as [C1 C2].
  destruct (construct_accepts limit _ _ _ _ _ _ C1 (Spl [KnotAxis 1 (expand_knots (line_breaks n) (joined 1 n))] points None)) as [_ B].
  destruct B as (st & E & E2).
  - refine (conj C2 (conj _ _)).
    + split; [exact Hl|]. constructor; [|constructor]. now apply line_high.
    + unfold has_properties. cbn. repeat split; auto. constructor; [now exists 1|constructor].
  - unfold make_line. now rewrite E, E2.
Qed.
Lemma line_value n (points : list (list Qc)) c t d : 1 <= n -> length points = n + 1 -> c < n -> (0 <= t)%Qc -> (t <= 1)%Qc ->
  sp_value (Spl [KnotAxis 1 (expand_knots (line_breaks n) (joined 1 n))] points None) [(inj c + t) / inj n]%Qc d =
  ((1 - t) * nth d (nth c points []) 0 + t * nth d (nth (c + 1) points []) 0)%Qc.
Proof.
  intros Hn L Hc T0 T1. rewrite sp_value_functional. cbn [sp_axes sp_cps sp_weights]. rewrite functional_axis.
  assert (length (line_breaks n) = n + 1) as Lb by (unfold line_breaks; now rewrite map_length, seq_length).
  destruct (joined_n 1 n _ _ ltac:(lia) Hn Lb (line_sorted n Hn) eq_refl) as [-> _].
  rewrite (qsum_ext _ (fun j => Qcmult (if (1 * c <=? j) && (j <=? 1 * c + 1) then bernstein 1 (j - 1 * c) t else 0%Qc) (nth d (nth j points []) 0%Qc))).
  - rewrite (qsum_window (fun j => bernstein 1 j t) _ (1 * c) 1 (1 * n + 1)) by lia.
    cbn [Nat.add seq map qsum]. rewrite bernstein_1_0, bernstein_1_1, Nat.mul_1_l, Nat.add_0_r. ring.
  - intros j Hj. apply in_seq in Hj. rewrite (joined_fun 1 n (line_breaks n) _ c t) by (auto using line_sorted; try lia;
      unfold line_breaks; rewrite !nth_seq_map by lia; rewrite inj_S; field; now apply inj_neq). reflexivity.
Qed.
Lemma line_short limit points : length points <= 1 -> make_line limit points = None.
Proof.
  intros L. unfold make_line. destruct (construct limit CBSpline (line points)) as [st|st] eqn:E; [|reflexivity].
  destruct (s_core st) as [s|] eqn:Es; [|reflexivity]. exfalso.
  assert (B : built limit CBSpline (line points) s) by now exists st.
  assert (C : complete CBSpline (line points) [1%Z] (in_kvs (line points)) points None).
  { unfold complete, line. cbn [in_deg in_cps in_kvs in_ws]. repeat (split; [easy|]). easy. }
  apply (construct_accepts limit _ _ _ _ _ _ C) in B as ((_ & K & _) & _).
  unfold line in K. cbn [in_kvs] in K. inversion K as [|? ? ? ? (_ & _ & H)]; subst.
  cbn [app length] in H. rewrite app_length in H. unfold linspace01 in H. rewrite map_length, seq_length in H. cbn [length] in H. lia.
Qed.

(** * Boxes *)
Definition bounded_box (limit : nat) (s : spline) (lengths : list Qc) : Prop :=
  sound limit (length lengths) s /\ sp_axes s = repeat (BezierAxis 1) (length lengths) /\ sp_weights s = None /\
  forall us d, sp_domain s us -> sp_value s us d = (nth d us 0 * nth d lengths 0)%Qc.

Lemma box_kvs limit s ls : bounded_box limit s ls -> 1 <= length ls -> has_kvs s = false.
Proof. intros (_ & E & _) H. unfold has_kvs. rewrite E. destruct (length ls); [lia|reflexivity]. Qed.

Lemma prod_bezier n : prodn (map ax_n (repeat (BezierAxis 1) n)) = 2 ^ n.
Proof. induction n as [|n IH]; [reflexivity|]. cbn [repeat map prodn ax_n]. rewrite IH. cbn; lia. Qed.

Lemma nth_repeat0 n d : nth d (repeat 0%Qc n) 0%Qc = 0%Qc.
Proof. revert d; induction n as [|n IH]; intros [|d]; cbn; auto. Qed.

Lemma box_step limit s ls l : bounded_box limit s ls -> 1 <= length ls ->
  match extruded s (repeat 0%Qc (length ls) ++ [l]) with
  | None => False
  | Some i =>
      match make limit s i with
      | None => limit < length ls + 1
      | Some s' => length ls + 1 <= limit /\ bounded_box limit s' (ls ++ [l])
      end
  end.
Proof.
  intros B H1. pose proof (box_kvs _ _ _ B H1) as Kv. destruct B as (So & Ea & Ew & V).
  set (v := repeat 0%Qc (length ls) ++ [l]).
  assert (Lv : length v = length ls + 1) by (unfold v; now rewrite app_length, repeat_length).
  rewrite (extruded_eq limit (length ls) s v So) by lia.
  match goal with |- match make limit s ?j with _ => _ end => set (i := j) end.
  assert (La : length (sp_axes s) = length ls) by now rewrite Ea, repeat_length.
  destruct (Nat.le_gt_cases (length ls + 1) limit) as [Hl|Hl].
  - unfold i. rewrite (extruded_make limit (length ls) s v So) by (intros; lia).
    split; [exact Hl|].
    match goal with |- bounded_box _ ?x _ => set (s' := x) end.
    assert (Ea' : sp_axes s' = repeat (BezierAxis 1) (length (ls ++ [l]))).
    { unfold s', swept, new_axis. cbn [sp_axes]. rewrite Kv, Ea, app_length, repeat_app. reflexivity. }
    assert (Ew' : sp_weights s' = None) by (unfold s', swept; cbn [sp_weights]; now rewrite Ew).
    refine (conj (conj _ (conj _ (conj _ _))) (conj Ea' (conj Ew' _))).
    + eapply (make_storable limit s i s').
      * apply (extend_complete s 1 (bezier_knots 1)). exact (extruded_kind s).
      * unfold i, s'. apply (extruded_make limit (length ls) s v So); intros; lia.
    + destruct So as (_ & (_ & L & _) & _). unfold sp_res in L.
      unfold sp_wf, sp_res. rewrite Ew', Ea'. split; [|split; [|easy]].
      * apply Forall_forall. intros a Ha. apply repeat_spec in Ha as ->. exact I.
      * unfold s', swept. cbn [sp_cps flat_map]. rewrite app_nil_r, app_length, !map_length, L, Ea.
        rewrite !fold_right_mul_prodn, !prod_bezier, app_length. cbn [length]. rewrite Nat.pow_add_r. cbn. lia.
    + unfold s', swept. cbn [sp_cps]. rewrite app_length. cbn [length]. rewrite <- Lv. exact (extruded_rows limit (length ls) s v So ltac:(lia)).
    + now rewrite Ew'.
    + intros us d D. assert (exists us0 t, us = us0 ++ [t] /\ sp_domain s us0) as (us0 & t & -> & D0).
      { unfold sp_domain in *. unfold s', swept in D. cbn [sp_axes] in D. apply Forall2_app_inv_l in D as (us0 & us1 & D0 & D1 & ->).
        inversion D1 as [|? t ? ? _ D2]; subst. inversion D2; subst. now exists us0, t. }
      unfold s'. rewrite (extruded_value limit (length ls) s v So ltac:(lia) us0 t d D0).
      unfold embedded_in. rewrite V by exact D0.
      assert (length us0 = length ls) as Lu. { apply Forall2_len in D0. lia. }
      unfold v. destruct (Nat.ltb_spec d (length ls)) as [Hd|Hd].
      * rewrite !app_nth1 by (rewrite ?repeat_length; lia). rewrite nth_repeat0. ring.
      * rewrite !app_nth2 by (rewrite ?repeat_length; lia). rewrite repeat_length, Lu. destruct (d - length ls) as [|[|e]]; cbn [nth]; ring.
  - destruct (make limit s i) as [s'|] eqn:E; [|exact Hl]. exfalso.
    apply make_built in E.
    apply (construct_accepts limit _ _ _ _ _ _ (extend_complete s 1 (bezier_knots 1) _ _ (extruded_kind s))) in E as (_ & (Hx & _) & _).
    rewrite app_length in Hx. unfold core_degrees in Hx. rewrite map_length, La in Hx. cbn [length] in Hx. lia.
Qed.

Lemma box_from_spec limit rest : forall s ls, bounded_box limit s ls -> 1 <= length ls -> length ls <= limit ->
  match box_from limit (length ls - 1) s rest with
  | None => limit < length (ls ++ rest)
  | Some s' => length (ls ++ rest) <= limit /\ bounded_box limit s' (ls ++ rest)
  end.
Proof.
  induction rest as [|l rest IH]; intros s ls B H1 H2; cbn [box_from].
  - now rewrite app_nil_r.
  - replace (length ls - 1 + 1) with (length ls) by lia.
    pose proof (box_step limit s ls l B H1) as St. destruct (extruded s _) as [i|]; [|easy].
    destruct (make limit s i) as [s'|].
    + destruct St as [Hl B']. specialize (IH s' (ls ++ [l]) B').
      rewrite app_length in IH. cbn [length] in IH. replace (length ls + 1 - 1) with (length ls) in IH by lia.
      specialize (IH ltac:(lia) ltac:(lia)). rewrite <- app_assoc in IH. exact IH.
    + rewrite app_length. cbn [length]. lia.
Qed.
Lemma box_start limit l : 1 <= limit -> exists st, construct limit CBezier (Inputs (Some [1%Z]) None (Some [[0%Qc]; [l]]) None) = Done st /\
  exists s, s_core st = Some s /\ bounded_box limit s [l].
Proof.
  intros Hl. set (s := Spl [BezierAxis 1] [[0%Qc]; [l]] None).
  assert (C : complete CBezier (Inputs (Some [1%Z]) None (Some [[0%Qc]; [l]]) None) [1%Z] None [[0%Qc]; [l]] None) by (unfold complete; now cbn).
  assert (Cs : consistent [1%Z] None [[0%Qc]; [l]] None).
  { split; [discriminate|]. split; [repeat constructor; lia|]. split; [exists 1; split; [lia|now repeat constructor]|]. split; [reflexivity|easy]. }
  assert (Sp : supported limit [1%Z] None [[0%Qc]; [l]]) by (split; cbn; [lia|repeat constructor; cbn; lia]).
  assert (P : has_properties s [1%Z] None [[0%Qc]; [l]] None).
  { unfold has_properties, s. cbn. repeat split; auto. constructor; [now exists 1|constructor]. }
  destruct (construct_accepts limit _ _ _ _ _ _ C s) as [_ B].
  destruct (B (conj Cs (conj Sp P))) as (st & E & E2). exists st. split; [exact E|]. exists s. split; [exact E2|].
  refine (conj (conj _ (conj _ (conj _ _))) (conj eq_refl (conj eq_refl _))).
  - now exists [1%Z], None, [[0%Qc]; [l]], None.
  - unfold sp_wf, s. cbn. split; [repeat constructor|split; easy].
  - unfold s. cbn. now repeat constructor.
  - exact I.
  - intros us d D. unfold s in D. inversion D as [|? u ? us' Du D']; subst. inversion D'; subst.
    rewrite sp_value_functional. cbn [s sp_axes sp_cps sp_weights]. rewrite functional_axis.
    cbn [ax_n Nat.add seq map qsum ax_fun]. rewrite bernstein_1_0, bernstein_1_1. cbn [nth].
    destruct d as [|[|d]]; cbn [nth]; ring.
Qed.
Lemma box_spec limit ls :
  match box limit ls with
  | None => ls = [] \/ limit < length ls
  | Some s => 1 <= length ls <= limit /\ bounded_box limit s ls
  end.
Proof.
  destruct ls as [|l ls]; [now left|]. cbn [box].
  destruct (Nat.eq_dec limit 0) as [->|Hl].
  - destruct (construct 0 CBezier _) as [st|st] eqn:E; [|right; cbn; lia].
    destruct (s_core st) as [s|] eqn:Es; [|right; cbn; lia]. exfalso.
    assert (C : complete CBezier (Inputs (Some [1%Z]) None (Some [[0%Qc]; [l]]) None) [1%Z] None [[0%Qc]; [l]] None) by (unfold complete; now cbn).
    assert (B : built 0 CBezier (Inputs (Some [1%Z]) None (Some [[0%Qc]; [l]]) None) s) by now exists st.
    apply (construct_accepts 0 _ _ _ _ _ _ C) in B as (_ & (H & _) & _). cbn in H. lia.
  - destruct (box_start limit l ltac:(lia)) as (st & E & s & Es & B). rewrite E, Es.
    pose proof (box_from_spec limit ls s [l] B ltac:(cbn; lia) ltac:(cbn; lia)) as H. cbn [length Nat.sub app] in H.
    destruct (box_from limit 0 s ls); [|now right]. destruct H. split; [|easy]. cbn [length]. lia.
Qed.

(** * Boxes with bounds *)
Definition segment (ab : Qc * Qc) : paxis := KnotAxis 1 [fst ab; fst ab; snd ab; snd ab].
Lemma segment_joined a b : [a; a; b; b] = expand_knots [a; b] (joined 1 1).
Proof. reflexivity. Qed.
Lemma segment_sorted a b : (a < b)%Qc -> StronglySorted Qclt [a; b].
Proof. repeat constructor. auto. Qed.
Lemma segment_fun ab u i : (fst ab < snd ab)%Qc -> ax_domain (segment ab) u -> i < 2 ->
  ax_fun (segment ab) u i = bernstein 1 i ((u - fst ab) / (snd ab - fst ab))%Qc.
Proof.
  destruct ab as [a b]. cbn [fst snd segment]. intros H (D0 & D1) Hi. unfold ax_lower, ax_upper in *. cbn in D0, D1.
  assert (b - a <> 0)%Qc as N by (intros E; assert (b = a) by (rewrite <- (Qcplus_0_r a), <- E; ring); subst; qlra).
  assert (0 < / (b - a))%Qc as P by (apply Qc_inv_pos; qlra).
  change (segment (a, b)) with (KnotAxis 1 [a; a; b; b]).
  rewrite (joined_fun 1 1 [a; b] _ 0 ((u - a) / (b - a))%Qc u i); auto using segment_sorted.
  - cbn [Nat.mul Nat.add Nat.leb andb]. destruct (Nat.leb_spec i 1); [|lia]. now rewrite Nat.sub_0_r.
  - unfold Qcdiv. rewrite <- (Qcmult_0_l (/ (b - a))). apply Qcmult_le_compat_r; [qlra|]. now apply Qclt_le_weak.
  - replace 1%Qc with ((b - a) / (b - a))%Qc by (field; exact N). unfold Qcdiv. apply Qcmult_le_compat_r; [qlra|]. now apply Qclt_le_weak.
  - cbn [nth]. field. exact N.
Qed.
Lemma segment_wf ab : (fst ab < snd ab)%Qc -> ax_wf (segment ab).
Proof.
  destruct ab as [a b]. cbn [fst snd]. intros H. split; [reflexivity|]. split; [|exact H].
  intros i j H1 H2. cbn [length segment fst snd] in *.
  destruct i as [|[|[|[|i]]]], j as [|[|[|[|j]]]]; try lia; cbn [nth]; qlra.
Qed.
Lemma rescaled_spec n lo hi : rescaled (repeat (bezier_knots 1) n) lo hi =
  if (n <=? length lo) && (n <=? length hi)
  then Some (map (fun ab => [fst ab; fst ab; snd ab; snd ab]) (combine (firstn n lo) (firstn n hi))) else None.
Proof.
  revert lo hi; induction n as [|n IH]; intros [|a lo] [|b hi]; try reflexivity.
  - cbn [repeat rescaled length Nat.leb]. now rewrite andb_false_r.
  - cbn [repeat rescaled]. rewrite IH. cbn [length Nat.leb]. destruct ((n <=? length lo) && (n <=? length hi)); [|reflexivity].
    cbn [option_map firstn combine map fst snd bezier_knots Nat.add repeat app]. do 2 f_equal. unfold bezier_knots.
    cbn [Nat.add repeat app map]. assert (0 * (b - a) + a = a)%Qc as -> by ring. assert (1 * (b - a) + a = b)%Qc as -> by ring. reflexivity.
Qed.

Lemma map_repeat {A B} (f : A -> B) x n : map f (repeat x n) = repeat (f x) n.
Proof. induction n; cbn; congruence. Qed.

Section Bounds.
Variables (limit : nat) (plo phi lo hi : list Qc).
Hypothesis L : length hi = length lo.
Let n := length lo.
Let pairs := combine (firstn n plo) (firstn n phi).
Definition bounds_spline (cps : list (list Qc)) : spline := Spl (map segment pairs) (map (fun p => row_add p lo) cps) None.

Lemma size_length : length (row_sub hi lo) = n.
Proof. rewrite row_sub_length. unfold n. lia. Qed.
Lemma from_bounds_eq b : box limit (row_sub hi lo) = Some b -> n <= length plo -> n <= length phi ->
  Forall (fun ab => qc (-1) 1 <= fst ab /\ fst ab <= snd ab)%Qc pairs ->
  from_bounds limit plo phi lo hi = Some (bounds_spline (sp_cps b)) /\ storable limit (bounds_spline (sp_cps b)).
Proof.
  intros E L1 L2 F. pose proof (box_spec limit (row_sub hi lo)) as B. rewrite E in B. rewrite size_length in B.
  destruct B as (Hn & (St & Wf & Fr & _) & Ea & Ew & _). rewrite size_length in *.
  assert (Lp : length pairs = n) by (unfold pairs; rewrite combine_length, !firstn_length; lia).
  unfold from_bounds. rewrite E.
  set (s := Spl (map with_knots (sp_axes b)) (map (fun p => row_add p lo) (sp_cps b)) None).
  assert (core_kvs s = repeat (bezier_knots 1) n) as Ek.
  { unfold core_kvs, s. cbn [sp_axes]. rewrite Ea, !map_repeat. reflexivity. }
  cbv zeta. rewrite Ek, rescaled_spec.
  destruct (Nat.leb_spec n (length plo)), (Nat.leb_spec n (length phi)); try lia. cbn [andb]. fold pairs.
  assert (name_of s = CBSpline) as Nm.
  { unfold name_of, has_kvs, s. cbn [sp_axes sp_weights]. rewrite Ea. destruct n; [lia|reflexivity]. }
  assert (core_degrees s = repeat 1%Z n) as Ed.
  { unfold core_degrees, s. cbn [sp_axes]. rewrite Ea, !map_repeat. reflexivity. }
  rewrite Ed.
  set (kvs := map (fun ab : Qc * Qc => [fst ab; fst ab; snd ab; snd ab]) pairs).
  set (i := Inputs (Some (repeat 1%Z n)) (Some kvs) (Some (sp_cps s)) None).
  assert (Cm : complete (name_of s) i (repeat 1%Z n) (Some kvs) (sp_cps s) None).
  { rewrite Nm. unfold complete, i. cbn. repeat (split; [easy|]). easy. }
  assert (W : wanted (repeat 1%Z n) (Some kvs) = Z.of_nat (2 ^ n)).
  { unfold kvs. rewrite <- Lp. clear. generalize pairs. intros l. induction l as [|ab l IH]; [reflexivity|].
    cbn [length repeat map wanted]. rewrite IH. cbn [length]. cbn [Nat.pow]. lia. }
  assert (Cs : consistent (repeat 1%Z n) (Some kvs) (sp_cps s) None).
  { split; [destruct n; [lia|discriminate]|]. split; [|split; [|split; [|easy]]].
    - unfold kvs. rewrite <- Lp. clear - F. generalize dependent pairs. intros l F. induction F as [|[a c] l (H1 & H2) F IH]; [constructor|].
      cbn [length repeat map]. constructor; [|exact IH]. cbn [fst snd] in *. split; [lia|]. split; [|cbn; lia].
      intros j k Hj Hk. cbn [length] in Hk.
      destruct j as [|[|[|[|j]]]], k as [|[|[|[|k]]]]; try lia; cbn [nth]; qlra.
    - exists n. split; [lia|]. unfold s. cbn [sp_cps]. apply Forall_map. eapply Forall_impl; [|exact Fr].
      cbn. intros p Hp. rewrite row_add_length. unfold n in *. lia.
    - unfold s. cbn [sp_cps]. rewrite map_length, W. f_equal. destruct Wf as (_ & Wl & _). rewrite Wl. unfold sp_res.
      now rewrite Ea, fold_right_mul_prodn, prod_bezier. }
  assert (Sp : supported limit (repeat 1%Z n) (Some kvs) (sp_cps s)).
  { split; [rewrite repeat_length; lia|]. unfold kvs. apply Forall_map. eapply Forall_impl; [|exact F].
    intros [a c] (H1 & H2). cbn [fst snd] in *. repeat constructor; auto; qlra. }
  assert (Ax : make_axes (repeat 1%Z n) (Some kvs) = map segment pairs).
  { unfold kvs. rewrite <- Lp. clear. generalize pairs. intros l. induction l as [|ab l IH]; [reflexivity|].
    cbn [length repeat map make_axes hd tl]. now rewrite IH. }
  pose proof (make_accepts limit s i _ _ _ _ Cm Cs Sp) as M. rewrite Ax in M.
  split; [exact M|]. exact (make_storable limit s i _ _ _ _ _ Cm M).
Qed.

Lemma from_bounds_value b us d : box limit (row_sub hi lo) = Some b -> n <= length plo -> n <= length phi ->
  Forall (fun ab => fst ab < snd ab)%Qc pairs -> sp_domain (bounds_spline (sp_cps b)) us -> d < n ->
  sp_value (bounds_spline (sp_cps b)) us d =
  (nth d lo 0 + (nth d us 0 - nth d plo 0) / (nth d phi 0 - nth d plo 0) * (nth d hi 0 - nth d lo 0))%Qc.
Proof.
  intros E L1 L2 F D Hd. pose proof (box_spec limit (row_sub hi lo)) as B. rewrite E in B. rewrite size_length in B.
  destruct B as (Hn & (St & Wf & Fr & _) & Ea & Ew & V). rewrite size_length in *.
  assert (Lp : length pairs = n) by (unfold pairs; rewrite combine_length, !firstn_length; lia).
  unfold sp_domain, bounds_spline in D. cbn [sp_axes] in D.
  assert (Lu : length us = n). { apply Forall2_len in D. rewrite map_length in D. lia. }
  set (us' := map (fun x => (snd x - fst (fst x)) / (snd (fst x) - fst (fst x)))%Qc (combine pairs us)).
  assert (Lu' : length us' = n) by (unfold us'; rewrite map_length, combine_length; lia).
  assert (D' : Forall2 ax_domain (repeat (BezierAxis 1) n) us').
  { unfold us'. rewrite <- Lp. clear - F D. revert us D. induction F as [|[a c] l H F IH]; intros us D; inversion D; subst; cbn [length repeat map combine];
      constructor; auto. cbn [fst snd] in *. destruct H2 as [D0 D1]. unfold ax_lower, ax_upper in D0, D1. cbn in D0, D1.
    assert (c - a <> 0)%Qc as N by (intros E; assert (c = a) by (rewrite <- (Qcplus_0_r a), <- E; ring); subst; qlra).
    assert (0 < / (c - a))%Qc as P by (apply Qc_inv_pos; qlra).
    split; unfold ax_lower, ax_upper.
    - unfold Qcdiv. rewrite <- (Qcmult_0_l (/ (c - a))). apply Qcmult_le_compat_r; [qlra|]. now apply Qclt_le_weak.
    - replace 1%Qc with ((c - a) / (c - a))%Qc by (field; exact N). unfold Qcdiv. apply Qcmult_le_compat_r; [qlra|]. now apply Qclt_le_weak. }
  unfold bounds_spline. rewrite (value_axes_ext _ (repeat (BezierAxis 1) n) _ None us us' d); rewrite ?map_length, ?repeat_length; try lia.
  - rewrite sp_value_functional. cbn [sp_axes sp_cps sp_weights].
    rewrite (functional_ext _ _ _ (fun g => nth d (nth g (sp_cps b) []) 0 + nth d lo 0 * 1)%Qc).
    + rewrite functional_add, functional_mul, functional_one; [|apply Forall_forall; intros a Ha; apply repeat_spec in Ha as ->; exact I|exact D'].
      rewrite Qcplus_comm. f_equal; [ring|].
      assert (sp_domain b us') as Db by (unfold sp_domain; now rewrite Ea).
      specialize (V us' d Db). rewrite sp_value_functional, Ew, Ea in V. rewrite V, row_sub_nth by auto. f_equal.
      unfold us'.
      set (f := fun x : Qc * Qc * Qc => ((snd x - fst (fst x)) / (snd (fst x) - fst (fst x)))%Qc).
      rewrite (nth_indep _ 0%Qc (f ((0, 0), 0)%Qc)) by (rewrite map_length, combine_length; lia).
      rewrite map_nth. unfold f. rewrite combine_nth by lia. cbn [fst snd].
      unfold pairs. rewrite combine_nth by (rewrite !firstn_length; lia). cbn [fst snd].
      rewrite !nth_firstn by lia. reflexivity.
    + rewrite repeat_length. exact Lu'.
    + intros g Hg. rewrite prod_bezier in Hg. destruct Wf as (_ & Wl & _). unfold sp_res in Wl.
      rewrite Ea, fold_right_mul_prodn, prod_bezier in Wl.
      rewrite (nth_indep _ [] (row_add [] lo)) by (rewrite map_length; lia). rewrite (map_nth (fun p => row_add p lo)).
      rewrite row_add_nth; [ring|]. rewrite Forall_forall in Fr. rewrite (Fr (nth g (sp_cps b) [])); [reflexivity|]. apply nth_In. lia.
  - unfold us'. rewrite <- Lp. clear - F D. revert us D. induction F as [|ab l H F IH]; intros us D; inversion D as [|? u ? us1 Du D1]; subst; [constructor|].
    cbn [map combine length repeat]. constructor; [|now apply IH]. cbn [fst snd]. split; [reflexivity|].
    intros i Hi. change (ax_n (segment ab)) with 2 in Hi. rewrite segment_fun by auto. reflexivity.
Qed.
Lemma from_bounds_few : n = 0 \/ limit < n \/ length plo < n \/ length phi < n -> from_bounds limit plo phi lo hi = None.
Proof.
  intros H. unfold from_bounds. pose proof (box_spec limit (row_sub hi lo)) as B. rewrite size_length in B.
  destruct (box limit (row_sub hi lo)) as [b|]; [|reflexivity].
  destruct B as (Hn & _ & Ea & _). rewrite size_length in Ea. cbv zeta.
  assert (core_kvs (Spl (map with_knots (sp_axes b)) (map (fun p => row_add p lo) (sp_cps b)) None) = repeat (bezier_knots 1) n) as ->.
  { unfold core_kvs. cbn [sp_axes]. rewrite Ea, !map_repeat. reflexivity. }
  rewrite rescaled_spec. destruct (Nat.leb_spec n (length plo)), (Nat.leb_spec n (length phi)); try reflexivity. lia.
Qed.
End Bounds.

(** * Revolution of rational splines *)
Section Exact.
Variables (O : oracles) (limit dim : nat) (s : spline) (dim' : nat) (k center : option (list Qc)) (a : Qc) (n : nat).
Hypothesis (So : sound limit dim s) (Hd : dim <= dim') (Hk : dim' = space (as_vector k))
  (Hk3 : match k with Some l => length l = 3 | None => True end)
  (Hc : match center with Some c => length c = dim' | None => True end)
  (Hn : 1 <= n) (Hb : has_kvs s = false -> n = 1)
  (Ci : circular O a) (Ro : rotates O k a) (Un : unit_axis (as_vector k)).
Lemma turn_exact us t : sp_weights s <> None -> sp_domain s us -> (0 <= t)%Qc -> (t <= inj n)%Qc ->
  exists al be, (al * al + be * be)%Qc = 1%Qc /\
    forall d, d < dim' -> sp_value (turn_result O s dim' k center a n) (us ++ [t]) d =
      (origin center d + turned (as_vector k) al be (fun e => embedded_in dim (sp_value s us) e - origin center e) d)%Qc.
Proof.
  intros Hw D T0 T1. destruct (segment_of n t Hn T0 T1) as (c & r & Hcn & R0 & R1 & ->).
  destruct (turn_circle O a c r Ci R0 R1) as [ND E]. eexists. eexists. split; [exact E|].
  intros d Hdd. rewrite (turn_value O limit dim s dim' k center a n So Hd Hk Hk3 Hc Hn Hb Ci Ro Un us c r d D Hcn R0 R1 Hdd).
  cbv zeta. destruct (sp_weights s); [|easy]. pose proof Ci as (_ & Es & _). rewrite Es.
  unfold turned. change (spot dim center d (sp_value s us)) with (fun e => embedded_in dim (sp_value s us) e - origin center e)%Qc.
  cbv beta in *. clear E. set (D0 := ((1 - r) * (1 - r) + _ + r * r)%Qc) in *.
  set (A0 := ((1 - r) * (1 - r) * o_cos O _ + _ + _)%Qc). set (B0 := ((1 - r) * (1 - r) * o_sin O _ + _ + _)%Qc).
  clearbody D0 A0 B0. field. exact ND.
Qed.
Lemma turn_knots us m d : sp_domain s us -> m <= n -> d < dim' ->
  sp_value (turn_result O s dim' k center a n) (us ++ [inj m]) d =
  (origin center d + turned (as_vector k) (o_cos O (inj (2 * m) * a)) (o_sin O (inj (2 * m) * a))
     (fun e => embedded_in dim (sp_value s us) e - origin center e) d)%Qc.
Proof.
  intros D Hm Hdd.
  assert (exists c r, c < n /\ (0 <= r)%Qc /\ (r <= 1)%Qc /\ (r = 0%Qc /\ m = c \/ r = 1%Qc /\ m = c + 1)) as (c & r & Hcn & R0 & R1 & Hr).
  { destruct m as [|m]; [exists 0, 0%Qc|exists m, 1%Qc].
    - split; [lia|]. split; [discriminate|]. split; [discriminate|]. now left.
    - split; [lia|]. split; [discriminate|]. split; [discriminate|]. right. split; [easy|lia]. }
  assert (inj m = inj c + r)%Qc as Em.
  { destruct Hr as [[-> ->]|[-> ->]]; [ring|]. rewrite Nat.add_1_r, inj_S. ring. }
  rewrite Em, (turn_value O limit dim s dim' k center a n So Hd Hk Hk3 Hc Hn Hb Ci Ro Un us c r d D Hcn R0 R1 Hdd).
  cbv zeta. unfold turned. change (spot dim center d (sp_value s us)) with (fun e => embedded_in dim (sp_value s us) e - origin center e)%Qc.
  destruct Hr as [[-> ->]|[-> ->]].
  - destruct (sp_weights s); [|ring]. field. discriminate.
  - replace (2 * c + 2) with (2 * (c + 1)) by lia. destruct (sp_weights s); [|ring]. field. discriminate.
Qed.
End Exact.

(** * Arcs *)
Definition start_spline (p : list Qc) (nurbs : bool) : spline :=
  Spl [if nurbs then KnotAxis 0 (bezier_knots 0) else BezierAxis 0] [p] (Some [1%Qc]).
Lemma start_sound limit p nurbs : 2 <= limit -> length p = 2 -> sound limit 2 (start_spline p nurbs).
Proof.
  intros Hl Lp. refine (conj _ (conj _ (conj _ _))).
  - exists [0%Z], (if nurbs then Some [bezier_knots 0] else None), [p], (Some [1%Qc]). refine (conj _ (conj _ _)).
    + split; [discriminate|]. split; [|split; [exists 2; split; [lia|now repeat constructor]|split; [now destruct nurbs|reflexivity]]].
      destruct nurbs; [constructor; [|constructor]; apply (bezier_fit 0)|repeat constructor; lia].
    + split; [cbn; lia|]. destruct nurbs; [constructor; [apply (bezier_high 0)|constructor]|constructor; [lia|constructor]].
    + unfold has_properties, start_spline. cbn. destruct nurbs; repeat split; auto; constructor; try constructor; eauto.
  - unfold sp_wf, start_spline, sp_res. cbn [sp_axes sp_cps sp_weights map]. destruct nurbs.
    + split; [constructor; [apply bezier_knots_wf|constructor]|]. rewrite bezier_knots_n. split; reflexivity.
    + split; [repeat constructor|]. split; reflexivity.
  - now repeat constructor.
  - cbn. constructor; [reflexivity|constructor].
Qed.
Lemma start_domain p nurbs : sp_domain (start_spline p nurbs) [0%Qc].
Proof.
  constructor; [|constructor]. destruct nurbs.
  - apply (with_knots_domain (BezierAxis 0)). split; discriminate.
  - split; discriminate.
Qed.
Lemma start_fun (nurbs : bool) : ax_n (if nurbs then KnotAxis 0 (bezier_knots 0) else BezierAxis 0) = 1 /\
  ax_fun (if nurbs then KnotAxis 0 (bezier_knots 0) else BezierAxis 0) 0%Qc 0 = 1%Qc.
Proof.
  destruct nurbs.
  - split; [apply bezier_knots_n|]. rewrite bezier_knots_fun by lia. apply bernstein_00.
  - split; [reflexivity|]. apply bernstein_00.
Qed.
Lemma start_functional (nurbs : bool) f : functional [if nurbs then KnotAxis 0 (bezier_knots 0) else BezierAxis 0] [0%Qc] f = f 0.
Proof.
  rewrite functional_axis. destruct (start_fun nurbs) as [-> E]. cbn [seq map qsum]. rewrite E. ring.
Qed.
Lemma start_value p nurbs d : sp_value (start_spline p nurbs) [0%Qc] d = nth d p 0%Qc.
Proof.
  rewrite sp_value_functional. cbn [start_spline sp_axes sp_cps sp_weights]. rewrite !start_functional. cbn [nth]. field. discriminate.
Qed.
Lemma drop_functional (nurbs : bool) b t f :
  functional ([if nurbs then KnotAxis 0 (bezier_knots 0) else BezierAxis 0] ++ [b]) ([0%Qc] ++ [t]) f = functional [b] [t] f.
Proof.
  rewrite functional_snoc by reflexivity. rewrite functional_axis. apply qsum_ext. intros j _. f_equal.
  rewrite start_functional. f_equal. cbn [map prodn]. destruct (start_fun nurbs) as [-> _]. lia.
Qed.

Section Arc.
Variables (O : oracles) (limit : nat) (radius angle : Qc) (asked : Z) (start : Qc) (degree : bool).
Hypothesis (Cn : constants O) (Hl : 2 <= limit) (Sq : square O).
Let rad := radians O (Some angle) degree.
Let rads := radians O (Some start) degree.
Let p := [(radius * o_cos O rads)%Qc; (radius * o_sin O rads)%Qc].
Let nurbs := qleb (o_pi O) (qabs rad) || (1 <? asked)%Z.
Definition arc_result (n : nat) : spline :=
  let r := turn_result O (start_spline p nurbs) 2 None None (rad / (inj 2 * inj n))%Qc n in
  Spl [turn_axis (start_spline p nurbs) n] (sp_cps r) (sp_weights r).

Lemma arc_spec : exists n, enough_spans O rad (Some asked) n /\
  arc O limit radius angle asked start degree = if nurbs || (n =? 1) then Some (arc_result n) else None.
Proof.
  pose proof (start_sound limit p nurbs Hl eq_refl) as So.
  destruct (revolved_spec O limit 2 (start_spline p nurbs) None None (Some rad) (Some asked) false Cn So) as (n & En & Es & E).
  exists n. split; [exact Es|].
  cbn [revolved_dim direction] in E. cbn [Nat.leb Nat.eqb orb andb] in E. change (radians O (Some rad) false) with rad in *.
  assert (has_kvs (start_spline p nurbs) = nurbs) as Hkv by (unfold start_spline, has_kvs; cbn; now destruct nurbs).
  rewrite Hkv in E.
  unfold arc.
  change (if degree then (angle * (o_pi O / inj 180))%Qc else angle) with (revolve_angle O (Some angle) degree).
  change (if degree then (start * (o_pi O / inj 180))%Qc else start) with (revolve_angle O (Some start) degree).
  rewrite !radians_eq. fold rad rads. fold p. fold nurbs.
  cbn [sp_axes sp_cps sp_weights map with_knots].
  assert ((if nurbs then Spl [KnotAxis 0 (bezier_knots 0)] [p] (Some [1%Qc]) else Spl [BezierAxis 0] [p] (Some [1%Qc])) = start_spline p nurbs) as ->
    by now destruct nurbs.
  rewrite E. destruct (nurbs || (n =? 1)) eqn:Hc; [|reflexivity].
  assert (Hb : has_kvs (start_spline p nurbs) = false -> n = 1).
  { rewrite Hkv. intros Hf. rewrite Hf in Hc. now apply Nat.eqb_eq. }
  destruct Es as (Hn & Es).
  set (a := (rad / (inj 2 * inj n))%Qc) in *.
  pose proof (Sq None a) as Hsq.
  rewrite (turn_make O limit 2 (start_spline p nurbs) 2 None None a n So (le_n 2) eq_refl I I Hn Hb Hsq) by (cbn; lia).
  fold (turn_result O (start_spline p nurbs) 2 None None a n).
  set (r := turn_result O (start_spline p nurbs) 2 None None a n).
  rewrite Hkv.
  assert (tl (core_degrees r) = [2%Z]) as ->.
  { unfold r, turn_result, swept, core_degrees, turn_axis, new_axis. cbn [sp_axes]. rewrite Hkv. now destruct nurbs. }
  assert ((if nurbs then Some (tl (core_kvs r)) else None) = if nurbs then Some [revolved_knots n] else None) as ->.
  { unfold r, turn_result, swept, core_kvs, turn_axis, new_axis. cbn [sp_axes]. rewrite Hkv. now destruct nurbs. }
  assert (Ew : exists w, sp_weights r = Some w) by (unfold r, turn_result, swept; cbn; eauto). destruct Ew as [w Ew].
  assert (Lc : length (sp_cps r) = 2 * n + 1).
  { unfold r, turn_result, swept. cbn [sp_cps].
    rewrite (turn_count O 2 (start_spline p nurbs) 2 None None a n (le_n 2) eq_refl Hn Hb Hsq).
    rewrite (turn_blocks (start_spline p nurbs) n Hn Hb). cbn [start_spline sp_cps length]. lia. }
  assert (Lw : length w = length (sp_cps r)).
  { pose proof (turn_ws O limit 2 (start_spline p nurbs) 2 None None a n So (le_n 2) eq_refl Hn Hb Hsq) as H.
    unfold r, turn_result, swept in Ew. cbn [sp_weights] in Ew. rewrite Ew in H. exact H. }
  set (kvs := if nurbs then Some [revolved_knots n] else None).
  erewrite make_accepts with (degs := [2%Z]) (kvs := kvs) (cps := sp_cps r) (ws := sp_weights r).
  - unfold arc_result. fold a. fold r. do 2 f_equal. unfold turn_axis, new_axis, kvs. rewrite Hkv. now destruct nurbs.
  - unfold complete, name_of. rewrite Hkv. cbn [in_deg in_cps in_kvs in_ws start_spline sp_weights]. rewrite Ew.
    split; [easy|]. split; [easy|]. unfold kvs. destruct nurbs.
    + repeat (split; [easy|]). easy.
    + repeat (split; [easy|]). easy.
  - split; [discriminate|]. split; [|split; [|split]].
    + unfold kvs. destruct nurbs; [constructor; [now apply turn_fit|constructor]|repeat constructor; lia].
    + exists 2. split; [lia|]. unfold r, turn_result, swept. cbn [sp_cps].
      exact (turn_rows O limit 2 (start_spline p nurbs) 2 None None a n So (le_n 2) eq_refl I I Hn Hb Hsq).
    + rewrite Lc. unfold kvs. destruct nurbs.
      * pose proof (turn_blocks (start_spline p true) n Hn ltac:(discriminate)) as B. unfold blocks in B.
        change (length (revolved_knots n) - 2 - 1 = 2 * n + 1) in B.
        cbn [wanted]. destruct (turn_fit n Hn) as (_ & _ & F). lia.
      * rewrite (Hb Hkv). reflexivity.
    + rewrite Ew. exact Lw.
  - split; [cbn; lia|]. unfold kvs. destruct nurbs; [constructor; [apply turn_high|constructor]|].
    eapply Forall_impl; [|exact (turn_rows O limit 2 (start_spline p false) 2 None None a n So (le_n 2) eq_refl I I Hn Hb Hsq)].
    cbn. intros q ->. exact Hl.
Qed.

Lemma arc_value n t d : sp_value (arc_result n) [t] d =
  sp_value (turn_result O (start_spline p nurbs) 2 None None (rad / (inj 2 * inj n))%Qc n) ([0%Qc] ++ [t]) d.
Proof.
  rewrite !sp_value_functional. unfold arc_result. cbn [sp_axes sp_cps sp_weights].
  set (r := turn_result _ _ _ _ _ _ _).
  assert (sp_axes r = [if nurbs then KnotAxis 0 (bezier_knots 0) else BezierAxis 0] ++ [turn_axis (start_spline p nurbs) n]) as -> by reflexivity.
  destruct (sp_weights r); now rewrite !drop_functional.
Qed.
End Arc.

Lemma forall2_nth {A B} (P : A -> B -> Prop) l m da db i : Forall2 P l m -> i < length l -> P (nth i l da) (nth i m db).
Proof. intros F. revert i. induction F as [|x y l m Pxy F IH]; intros [|i] Hi; cbn in *; try lia; auto. apply IH. lia. Qed.
Lemma forall2_of_nth {A B} (P : A -> B -> Prop) l m da db : length l = length m ->
  (forall i, i < length l -> P (nth i l da) (nth i m db)) -> Forall2 P l m.
Proof.
  revert m; induction l as [|x l IH]; intros [|y m] L H; try discriminate; constructor.
  - apply (H 0). cbn. lia.
  - apply IH; [now injection L|]. intros i Hi. apply (H (S i)). cbn. lia.
Qed.

(** * Other dimensions *)
Lemma embedded_eq limit dim s n : sound limit dim s -> 1 <= n ->
  embedded s (Z.of_nat n) = Some (with_points s (map (fun p => zero_padded n (firstn n p)) (sp_cps s))).
Proof.
  intros (St & _ & F & _) Hn. unfold embedded. destruct (Z.ltb_spec (Z.of_nat n) 1); [lia|].
  rewrite Nat2Z.id, (dims_eq _ _ _ St F). do 2 f_equal. rewrite Forall_forall in F.
  destruct (Nat.ltb_spec n dim); [|destruct (Nat.ltb_spec dim n); [reflexivity|]].
  - apply map_ext_in. intros p Hp. specialize (F p Hp). unfold zero_padded. rewrite firstn_length, Nat.min_l by lia.
    now rewrite Nat.sub_diag, app_nil_r.
  - rewrite <- (map_id (sp_cps s)) at 1. apply map_ext_in. intros p Hp. specialize (F p Hp). unfold zero_padded.
    rewrite firstn_all2 by lia. replace (n - length p) with 0 by lia. now rewrite app_nil_r.
Qed.
Lemma embedded_make limit dim s n : sound limit dim s -> 1 <= n -> (has_kvs s = false -> n <= limit) ->
  let cps := map (fun p => zero_padded n (firstn n p)) (sp_cps s) in
  make limit s (with_points s cps) = Some (Spl (sp_axes s) cps (sp_weights s)).
Proof.
  intros (St & _ & F & _) Hn Hb cps. destruct (storable_core limit s St) as (cps0 & ws & <- & <- & (C1 & C2 & C3 & C4 & C5) & (S1 & S2) & Ax).
  rewrite <- Ax at 1.
  assert (Rows : Forall (fun p => length p = n) cps).
  { unfold cps. apply Forall_map. eapply Forall_impl; [|exact F]. intros p Hp. apply zero_padded_length. rewrite firstn_length. lia. }
  apply make_accepts with (kvs := if has_kvs s then Some (core_kvs s) else None).
  - unfold complete, with_points, name_of. cbn [in_deg in_cps in_kvs in_ws]. split; [easy|]. split; [easy|].
    destruct (has_kvs s), (sp_weights s); repeat (split; [easy|]); easy.
  - split; [exact C1|]. split; [exact C2|]. split; [exists n; now split|].
    split; unfold cps; rewrite ?map_length; [exact C4|exact C5].
  - split; [exact S1|]. destruct (has_kvs s); [exact S2|]. eapply Forall_impl; [|exact Rows]. cbn. intros p ->. auto.
Qed.
Lemma embedded_value limit dim s n us d : sound limit dim s -> sp_domain s us -> d < n ->
  sp_value (Spl (sp_axes s) (map (fun p => zero_padded n (firstn n p)) (sp_cps s)) (sp_weights s)) us d =
  embedded_in dim (sp_value s us) d.
Proof.
  intros (St & (_ & Wl & _) & F & _) D Hd. rewrite Forall_forall in F. apply Forall2_len in D.
  assert (E : forall g, g < prodn (map ax_n (sp_axes s)) ->
    nth d (nth g (map (fun p => zero_padded n (firstn n p)) (sp_cps s)) []) 0%Qc = nth d (nth g (sp_cps s) []) 0%Qc /\
    (dim <= d -> nth d (nth g (sp_cps s) []) 0%Qc = 0%Qc)).
  { intros g Hg. rewrite <- fold_right_mul_prodn in Hg. unfold sp_res in Wl. rewrite <- Wl in Hg. split.
    - rewrite (nth_indep _ [] (zero_padded n (firstn n []))) by (rewrite map_length; lia).
      rewrite (map_nth (fun p => zero_padded n (firstn n p))), nth_zero_padded. now apply nth_firstn.
    - intros H. apply nth_overflow. rewrite F by now apply nth_In. exact H. }
  rewrite !sp_value_functional. unfold embedded_in. rewrite sp_value_functional. cbn [sp_axes sp_cps sp_weights].
  assert (N0 : forall c, functional (sp_axes s) us (fun _ => (0 * c)%Qc) = 0%Qc) by (intros c; rewrite functional_mul; ring).
  destruct (Nat.ltb_spec d dim) as [H|H]; destruct (sp_weights s) as [ws|].
  - f_equal. apply functional_ext; auto. intros g Hg. now rewrite (proj1 (E g Hg)).
  - apply functional_ext; auto. intros g Hg. now rewrite (proj1 (E g Hg)).
  - rewrite (functional_ext _ _ _ (fun _ => (0 * 0)%Qc)).
    + rewrite N0. unfold Qcdiv. ring.
    + lia.
    + intros g Hg. destruct (E g Hg) as [-> E2]. rewrite (E2 H). ring.
  - rewrite (functional_ext _ _ _ (fun _ => (0 * 0)%Qc)).
    + apply N0.
    + lia.
    + intros g Hg. destruct (E g Hg) as [-> E2]. rewrite (E2 H). ring.
Qed.
Lemma no_kvs_bezier s : sp_axes s <> [] -> has_kvs s = false -> exists p, In (BezierAxis p) (sp_axes s).
Proof.
  unfold has_kvs. destruct (sp_axes s) as [|[p|p kv] l]; intros N H; [easy| |discriminate]. exists p. now left.
Qed.
Lemma storable_axes limit s : storable limit s -> sp_axes s <> [].
Proof.
  intros (degs & kvs & cps & ws & (N & _) & _ & (H & _)) E. rewrite E in H. cbn in H. congruence.
Qed.
