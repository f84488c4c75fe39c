(** Computed knots and parameters of fitting: the parameters determine the spline. *)
From Coq Require Import List Arith ZArith Lia Bool QArith Qcanon Qround Sorted.
From Verif Require Import Base BaseQc S_Spline P_Spline S_Value P_Value S_Knots M_Core S_Solve M_Fit S_Fit P_Fit P_FitLs P_Pieces P_Revolve P_SplineSpace P_AxisClass P_Placed.
Import ListNotations.
Local Open Scope list_scope.
Local Open Scope nat_scope.

(** * Blends *)
Section Blend.
Variable u : list Qc.
Hypothesis inc : increasing u.
Lemma inc_le i j : i <= j -> j < length u -> (nth i u 0 <= nth j u 0)%Qc.
Proof. intros H L. destruct (Nat.eq_dec i j) as [->|]; [apply Qcle_refl|]. apply Qclt_le_weak, inc; lia. Qed.
Lemma inc_nondec : non_decreasing u.
Proof. intros i j. apply inc_le. Qed.
Lemma blend_parts x : (1 <= x)%Qc -> (x < inj (length u))%Qc -> exists i t, 1 <= i /\ i < length u /\ x = (inj i + t)%Qc /\ (0 <= t)%Qc /\ (t < 1)%Qc /\
  blend u x = ((1 - t) * nth (i - 1) u 0 + t * nth i u 0)%Qc.
Proof.
  intros H1 H2. destruct (floor_index x _ H1 H2) as [A B]. destruct (floor_nat x) as [F1 F2]; [apply Qcle_trans with 1%Qc; [discriminate|auto]|].
  set (i := Z.to_nat (Qfloor (this x))) in *. replace (i + 1) with (S i) in F2 by lia. rewrite inj_S in F2. exists i, (x - inj i)%Qc. repeat split; auto; [ring|qlra|qlra].
Qed.
Lemma lerp_le t x y a : (0 <= t)%Qc -> (t < 1)%Qc -> (a <= x)%Qc -> (a <= y)%Qc -> (a <= (1 - t) * x + t * y)%Qc.
Proof. intros. assert (0 <= t * (y - a))%Qc by (apply Qc_mul_nonneg; qlra). assert (0 <= (1 - t) * (x - a))%Qc by (apply Qc_mul_nonneg; qlra). qlra. Qed.
Lemma inj_lt_inv a b : (inj a < inj b)%Qc -> a < b.
Proof. intros H. destruct (le_lt_dec b a) as [L|L]; auto. apply inj_le in L. apply Qcle_not_lt in L. contradiction. Qed.
Lemma inj_le_inv a b : (inj a <= inj b)%Qc -> a <= b.
Proof. intros H. destruct (le_lt_dec a b) as [L|L]; auto. apply inj_lt in L. apply Qcle_not_lt in H. contradiction. Qed.
(** [u_(k-1)] is the value at k. *)
Lemma blend_above k x : 1 <= k -> (inj k < x)%Qc -> (x < inj (length u))%Qc -> (nth (k - 1) u 0 < blend u x)%Qc.
Proof.
  intros Hk H1 H2. assert (1 <= x)%Qc as X1. { apply Qclt_le_weak. eapply Qcle_lt_trans; [|exact H1]. rewrite <- inj_1. now apply inj_le. }
  destruct (blend_parts x X1 H2) as (i & t & I1 & I2 & Ex & T0 & T1 & ->).
  assert (k <= i) as Ki. { assert (k < S i); [|lia]. apply inj_lt_inv. rewrite inj_S. qlra. }
  pose proof (inc (i - 1) i ltac:(lia) I2) as D. destruct (Nat.eq_dec k i) as [->|N].
  - assert (0 < t)%Qc as Tp by qlra. assert (0 < t * (nth i u 0 - nth (i - 1) u 0))%Qc by (apply Qc_mul_pos; auto; qlra). qlra.
  - eapply Qclt_le_trans; [apply (inc (k - 1) (i - 1)); lia|]. apply lerp_le; auto; [apply Qcle_refl|now apply Qclt_le_weak].
Qed.
Lemma blend_below k x : k <= length u -> (x < inj k)%Qc -> (1 <= x)%Qc -> (blend u x < nth (k - 1) u 0)%Qc.
Proof.
  intros Hk H1 X1. assert (x < inj (length u))%Qc as X2. { eapply Qclt_le_trans; [exact H1|]. now apply inj_le. }
  destruct (blend_parts x X1 X2) as (i & t & I1 & I2 & Ex & T0 & T1 & ->).
  assert (i < k) as Ki. { apply inj_lt_inv. qlra. }
  pose proof (inc (i - 1) i ltac:(lia) I2) as D. pose proof (inc_le i (k - 1) ltac:(lia) ltac:(lia)) as D2.
  assert (0 < (1 - t) * (nth i u 0 - nth (i - 1) u 0))%Qc by (apply Qc_mul_pos; qlra). qlra.
Qed.
Lemma blend_strict x y : (1 <= x)%Qc -> (x < y)%Qc -> (y < inj (length u))%Qc -> (blend u x < blend u y)%Qc.
Proof.
  intros X1 H Y2. assert (x < inj (length u))%Qc as X2 by qlra. assert (1 <= y)%Qc as Y1 by qlra.
  destruct (blend_parts x X1 X2) as (i & t & I1 & I2 & Ex & T0 & T1 & Eb). destruct (blend_parts y Y1 Y2) as (j & r & J1 & J2 & Ey & R0 & R1 & Eb').
  destruct (lt_eq_lt_dec i j) as [[L| ->]|L].
  - eapply Qclt_le_trans; [apply (blend_below (S i)); auto; rewrite inj_S; clear - Ex T1; qlra|]. replace (S i - 1) with i by lia. rewrite Eb'. apply lerp_le; auto; apply inc_le; lia.
  - rewrite Eb, Eb'. assert (t < r)%Qc by qlra. pose proof (inc (j - 1) j ltac:(lia) J2) as D. assert (0 < (r - t) * (nth j u 0 - nth (j - 1) u 0))%Qc by (apply Qc_mul_pos; qlra). qlra.
  - exfalso. pose proof (inj_le (S j) i L) as X. rewrite inj_S in X. clear - X Ex Ey T0 R1 H. qlra.
Qed.
End Blend.

Lemma step_frac n p m c : p < n -> (step n p m c * inj (n - p) = inj (c * m))%Qc.
Proof. intros H. unfold step. rewrite inj_mul. field. apply inj_neq0. lia. Qed.
Lemma step_gt n p m c k : p < n -> k * (n - p) < c * m -> (inj k < step n p m c)%Qc.
Proof.
  intros H L. apply inj_lt in L. rewrite <- (step_frac n p m c) in L by auto. rewrite inj_mul in L. pose proof (inj_pos (n - p) ltac:(lia)) as P.
  destruct (Qclt_le_dec (inj k) (step n p m c)) as [X|X]; auto. exfalso. apply (Qcmult_le_compat_r _ _ (inj (n - p))) in X; [|now apply Qclt_le_weak]. apply Qcle_not_lt in X. contradiction.
Qed.
Lemma step_lt n p m c k : p < n -> c * m < k * (n - p) -> (step n p m c < inj k)%Qc.
Proof.
  intros H L. apply inj_lt in L. rewrite <- (step_frac n p m c) in L by auto. rewrite inj_mul in L. pose proof (inj_pos (n - p) ltac:(lia)) as P.
  destruct (Qclt_le_dec (step n p m c) (inj k)) as [X|X]; auto. exfalso. apply (Qcmult_le_compat_r _ _ (inj (n - p))) in X; [|now apply Qclt_le_weak]. apply Qcle_not_lt in X. contradiction.
Qed.

(** * Averages *)
Lemma average_lt u p i x : 0 < p -> i + p <= length u -> (forall k, k < p -> (nth (i + k) u 0 < x)%Qc) -> (average u p i < x)%Qc.
Proof.
  intros Hp Hi H. unfold average. rewrite window_sum by auto. pose proof (inj_pos p Hp) as P.
  assert (qsum (map (fun k => nth (i + k) u 0) (seq 0 p)) < x * inj p)%Qc as Q.
  { rewrite (Qcmult_comm x). rewrite <- (seq_length p 0) at 2. rewrite <- qsum_const. apply qsum_lt with 0; [apply in_seq; lia| |apply H; lia]. intros k Hk. apply in_seq in Hk. apply Qclt_le_weak, H. lia. }
  apply (Qcmult_lt_compat_r _ _ (/ inj p)%Qc) in Q; [|now apply Qc_inv_pos]. replace (x * inj p * / inj p)%Qc with x in Q; auto. field. apply inj_neq0. auto.
Qed.
Lemma average_gt u p i x : 0 < p -> i + p <= length u -> (forall k, k < p -> (x < nth (i + k) u 0)%Qc) -> (x < average u p i)%Qc.
Proof.
  intros Hp Hi H. unfold average. rewrite window_sum by auto. pose proof (inj_pos p Hp) as P.
  assert (x * inj p < qsum (map (fun k => nth (i + k) u 0) (seq 0 p)))%Qc as Q.
  { rewrite (Qcmult_comm x). rewrite <- (seq_length p 0) at 1. rewrite <- qsum_const. apply qsum_lt with 0; [apply in_seq; lia| |apply H; lia]. intros k Hk. apply in_seq in Hk. apply Qclt_le_weak, H. lia. }
  apply (Qcmult_lt_compat_r _ _ (/ inj p)%Qc) in Q; [|now apply Qc_inv_pos]. replace (x * inj p * / inj p)%Qc with x in Q; auto. field. apply inj_neq0. auto.
Qed.
Lemma average_strict u p i j : increasing u -> 0 < p -> i < j -> j + p <= length u -> (average u p i < average u p j)%Qc.
Proof.
  intros Hu Hp Hij Hj. unfold average. rewrite !window_sum by lia. unfold Qcdiv. apply Qcmult_lt_compat_r; [apply Qc_inv_pos, inj_pos; auto|].
  apply qsum_lt with 0; [apply in_seq; lia| |apply Hu; lia]. intros k Hk. apply in_seq in Hk. apply Qclt_le_weak, Hu; lia.
Qed.

(** * The chosen parameters *)
Definition chosen (p n m i : nat) : nat := if m =? n then i else if p =? 0 then i * m / n else i * (m - 1) / (n - 1).
Section Computed.
Variables (p n : nat) (u : list Qc).
Let m := length u.
Hypothesis Hp : p < n.
Hypothesis Hn : n <= m.
Hypothesis Hz : m = n -> 0 < p.
Hypothesis n2 : 2 <= n.
Hypothesis inc : increasing u.
Hypothesis u0 : nth 0 u 0%Qc = 0%Qc.
Hypothesis u1 : last u 0%Qc = 1%Qc.
Let g := inner_knot p n u m.
Let us := 0%Qc :: map g (seq 1 (n - p - 1)) ++ [1%Qc].
Let ms := (p + 1) :: repeat 1 (n - p - 1) ++ [p + 1].
Lemma chosen_bounds i : i < n -> chosen p n m i < m.
Proof.
  intros Hi. unfold chosen. destruct (Nat.eqb_spec m n); [lia|]. destruct (Nat.eqb_spec p 0).
  - apply Nat.div_lt_upper_bound; nia.
  - assert (i * (m - 1) / (n - 1) <= m - 1); [|lia]. apply Nat.div_le_upper_bound; nia.
Qed.
Lemma chosen_up i : S i < n -> chosen p n m i < chosen p n m (S i).
Proof.
  intros Hi. unfold chosen. destruct (Nat.eqb_spec m n); [lia|]. destruct (Nat.eqb_spec p 0).
  - apply (Nat.div_le_lower_bound (S i * m) n (S (i * m / n))); [lia|]. pose proof (Nat.mul_div_le (i * m) n ltac:(lia)). nia.
  - apply (Nat.div_le_lower_bound (S i * (m - 1)) (n - 1) (S (i * (m - 1) / (n - 1)))); [lia|]. pose proof (Nat.mul_div_le (i * (m - 1)) (n - 1) ltac:(lia)). nia.
Qed.
Lemma inner_strict i j : 1 <= i -> i < j -> j < n - p -> (g i < g j)%Qc.
Proof.
  intros H1 H2 H3. unfold g, inner_knot. destruct (Nat.eqb_spec m n) as [E|E].
  - apply average_strict; auto. fold m. lia.
  - destruct (step_bounds n p m i) as [B1 B2]; try lia. destruct (step_bounds n p m j) as [B3 B4]; try lia. apply blend_strict; auto.
    unfold step. apply Qcmult_lt_compat_r; [|now apply inj_lt]. unfold Qcdiv. apply Qc_mul_pos; [apply inj_pos; lia|apply Qc_inv_pos, inj_pos; lia].
Qed.
Lemma inner_inside i : 1 <= i -> i < n - p -> (0 < g i)%Qc /\ (g i < 1)%Qc.
Proof.
  intros H1 H2. split.
  - pose proof (first_inner_pos p n u m ltac:(lia) Hn eq_refl Hz inc u0) as X. destruct (Nat.eq_dec i 1) as [->|]; [exact X|]. eapply Qclt_trans; [exact X|apply inner_strict; lia].
  - pose proof (last_inner_small p n u m ltac:(lia) Hn eq_refl Hz inc u1) as X. destruct (Nat.eq_dec i (n - p - 1)) as [->|]; [exact X|]. eapply Qclt_trans; [|exact X]. apply inner_strict; lia.
Qed.
Lemma chosen_above c i : 0 < c -> c < n - p -> p + c <= i -> i < n -> (g c < nth (chosen p n m i) u 0)%Qc.
Proof.
  intros H1 H2 H3 H4. pose proof (chosen_bounds i H4) as Cb. unfold g, inner_knot. unfold chosen in *. destruct (Nat.eqb_spec m n) as [E|E].
  - apply average_lt; auto; [fold m; lia|]. intros k Hk. apply inc; [lia|]. fold m. lia.
  - destruct (step_bounds n p m c) as [B1 B2]; try lia. destruct (Nat.eqb_spec p 0) as [Z|Z].
    + replace (i * m / n) with (S (i * m / n) - 1) at 1 by lia. apply blend_below; auto; try (fold m; lia). apply step_lt; auto.
      pose proof (Nat.mul_succ_div_gt (i * m) n ltac:(lia)). rewrite Z, Nat.sub_0_r. nia.
    + set (k := i * (m - 1) / (n - 1)) in *. replace k with (S k - 1) by lia. apply blend_below; auto; try (fold m; lia). apply step_lt; auto.
      pose proof (Nat.mul_succ_div_gt (i * (m - 1)) (n - 1) ltac:(lia)) as D. fold k in D.
      assert (c * m * (n - 1) < (i * (m - 1) + 1) * (n - p)) as X.
      { assert (c <= i - p) as C by lia. assert (exists r, i + r = n - 1) as (r & R) by (exists (n - 1 - i); lia).
        assert (exists e, c + e = i - p) as (e & Re) by (exists (i - p - c); lia).
        assert (exists q, n - p = q /\ 1 <= q) as (q & Q & Q1) by (exists (n - p); lia). assert (exists l, n - 1 = l) as (l & L) by now exists (n - 1). assert (exists b, m = S b) as (b & B) by (exists (m - 1); lia).
        rewrite Q, L, B. replace (S b - 1) with b by lia. assert (c + e + 1 + r = q) as R2 by lia. assert (i + r = l) as R3 by lia. assert (q <= l) as R4 by lia. assert (l < b) as R5 by lia. assert (l = q + (p - 1)) as R6 by lia.
        assert (exists s0, l = q + s0) as (s0 & ->) by (exists (p - 1); lia). assert (exists d, b = S (q + s0 + d)) as (d & ->) by (exists (b - S (q + s0)); lia).
        assert (i = c + e + 1 + s0) as -> by lia. clear - R2. subst q. set (q := c + e + 1 + r). set (b := S (q + s0 + d)). set (l := q + s0).
        assert ((( c + e + 1 + s0) * b + 1) * q = c * S b * l + 1 + (r * b * s0 + r * l + (c + e + r) + l * (s0 + d + 2) + e * S b * l)) as -> by (unfold b, l, q; ring). lia. }
      assert (c * m * (n - 1) < S k * (n - p) * (n - 1)) as Y by nia. apply Nat.mul_lt_mono_pos_r in Y; lia.
Qed.
Lemma chosen_below c i : 0 < c -> c < n - p -> i < c -> (nth (chosen p n m i) u 0 < g c)%Qc.
Proof.
  intros H1 H2 H3. pose proof (chosen_bounds i ltac:(lia)) as Cb. unfold g, inner_knot. unfold chosen in *. destruct (Nat.eqb_spec m n) as [E|E].
  - apply average_gt; auto; [fold m; lia|]. intros k Hk. apply inc; [lia|]. fold m. lia.
  - destruct (step_bounds n p m c) as [B1 B2]; try lia. destruct (Nat.eqb_spec p 0) as [Z|Z].
    + replace (i * m / n) with (S (i * m / n) - 1) at 1 by lia. apply blend_above; auto; try lia. apply step_gt; auto.
      pose proof (Nat.mul_div_le (i * m) n ltac:(lia)). rewrite Z, Nat.sub_0_r. nia.
    + set (k := i * (m - 1) / (n - 1)) in *. replace k with (S k - 1) at 1 by lia. apply blend_above; auto; try lia. apply step_gt; auto.
      pose proof (Nat.mul_div_le (i * (m - 1)) (n - 1) ltac:(lia)) as D. fold k in D.
      assert (S k * (n - 1) < c * m) as X by nia. nia.
Qed.

(** * Form of the axis *)
Lemma us_length : length us = n - p + 1.
Proof. unfold us. cbn [length]. rewrite app_length, map_length, seq_length. cbn. lia. Qed.
Lemma ms_length : length ms = n - p + 1.
Proof. unfold ms. cbn [length]. rewrite app_length, repeat_length. cbn. lia. Qed.
Lemma us_0 : zk us 0 = 0%Qc. Proof. reflexivity. Qed.
Lemma us_end : zk us (n - p) = 1%Qc.
Proof. unfold zk, us. destruct (n - p) as [|k] eqn:E; [lia|]. cbn [nth]. rewrite app_nth2; rewrite map_length, seq_length; [|lia]. now replace (k - (S k - 1)) with 0 by lia. Qed.
Lemma us_inner c : 0 < c -> c < n - p -> zk us c = g c.
Proof. intros H1 H2. unfold zk, us. destruct c as [|c]; [lia|]. cbn [nth]. rewrite app_nth1 by (rewrite map_length, seq_length; lia). rewrite at_map_seq by lia. reflexivity. Qed.
Lemma ms_start c : c <= n - p -> start (mk ms) c = match c with 0 => 0 | _ => p + c end.
Proof.
  induction c as [|c IH]; intros H; [reflexivity|]. rewrite start_S, IH by lia. destruct c as [|c]; [unfold mk, ms; cbn; lia|].
  assert (mk ms (S c) = 1) as ->; [|lia]. unfold mk, ms. cbn [nth]. rewrite app_nth1 by (rewrite repeat_length; lia). apply repeat_nth. lia.
Qed.
Lemma sorted_of (l : list Qc) : (forall i, S i < length l -> (nth i l 0 < nth (S i) l 0)%Qc) -> StronglySorted Qclt l.
Proof.
  intros H. apply Sorted_StronglySorted; [intros x y z; apply Qclt_trans|]. induction l as [|x l IH]; constructor.
  - apply IH. intros i Hi. apply (H (S i)). cbn. lia.
  - destruct l as [|y l]; constructor. apply (H 0). cbn. lia.
Qed.
Lemma computed_form : axis_form (KnotAxis p (repeat 0%Qc (p + 1) ++ map g (seq 1 (n - p - 1)) ++ repeat 1%Qc (p + 1))) us ms.
Proof.
  split; [|split; [|split; [|split; [|split; [|split]]]]].
  - apply sorted_of. rewrite us_length. intros i Hi. fold (zk us i) (zk us (S i)). destruct (Nat.eq_dec i 0) as [->|N0].
    + rewrite us_0. destruct (Nat.eq_dec 1 (n - p)) as [E|E]; [rewrite E, us_end; reflexivity|]. rewrite us_inner by lia. apply inner_inside; lia.
    + rewrite us_inner by lia. destruct (Nat.eq_dec (S i) (n - p)) as [E|E]; [rewrite E, us_end; apply inner_inside; lia|]. rewrite us_inner by lia. apply inner_strict; lia.
  - now rewrite us_length, ms_length.
  - rewrite ms_length. lia.
  - reflexivity.
  - rewrite ms_length. unfold ms. replace (n - p + 1 - 1) with (S (n - p - 1)) by lia. cbn [nth]. rewrite app_nth2 by (rewrite repeat_length; lia). rewrite repeat_length, Nat.sub_diag. reflexivity.
  - unfold ms. constructor; [lia|]. apply Forall_app. split; [|constructor; [lia|constructor]]. apply Forall_forall. intros x Hx. apply repeat_spec in Hx as ->. lia.
  - unfold us, ms. rewrite expand_cons. f_equal. rewrite expand_app by now rewrite map_length, seq_length, repeat_length. f_equal.
    + replace (repeat 1 (n - p - 1)) with (repeat 1 (length (map g (seq 1 (n - p - 1))))) by now rewrite map_length, seq_length. rewrite expand_repeat. induction (map g (seq 1 (n - p - 1))) as [|x l IH]; [reflexivity|]. cbn. f_equal. exact IH.
    + rewrite expand_cons. unfold expand_knots. cbn. now rewrite app_nil_r.
Qed.
Lemma computed_mult : Forall (fun k => k <= p + 1) ms.
Proof. unfold ms. constructor; [lia|]. apply Forall_app. split; [|constructor; [lia|constructor]]. apply Forall_forall. intros x Hx. apply repeat_spec in Hx as ->. lia. Qed.
Lemma computed_placed : placed us ms p (fun i => nth (chosen p n m i) u 0%Qc).
Proof.
  unfold placed. rewrite us_length. replace (n - p + 1 - 1) with (n - p) by lia. replace (start (mk ms) (n - p)) with n by (rewrite ms_start by lia; clear - Hp; destruct (n - p) eqn:E; lia).
  split; [|split; [|split]].
  - intros i Hi. apply inc; [now apply chosen_up|]. fold m. now apply chosen_bounds.
  - intros i Hi. rewrite us_0, us_end. pose proof (chosen_bounds i Hi). rewrite <- u0 at 1. rewrite last_nth in u1. rewrite <- u1. fold m. split; apply inc_le; auto; fold m; lia.
  - intros i c Hi H1 H2 H3. rewrite ms_start in H3 by lia. rewrite us_inner by auto. apply chosen_above; auto. destruct c; lia.
  - intros i c Hi H1 H2 H3. rewrite ms_start in H3 by lia. rewrite us_inner by auto. apply chosen_below; auto. lia.
Qed.
Lemma computed_determined kv cps : compute_knot_vector p n u m = Some kv -> length cps = n -> determined (Spl [KnotAxis p kv] cps None) u.
Proof.
  intros E Lc c Lx H. rewrite computed_eq in E by auto. injection E as <-. fold g in H. set (a := KnotAxis p _) in *.
  assert (ax_n a = n) as An. { unfold a. cbn [ax_n]. rewrite !app_length, !repeat_length, map_length, seq_length. lia. }
  assert (forall i, i < ax_n a -> nth i c 0%Qc = 0%Qc) as X.
  { apply (unisolvent a us ms computed_form computed_mult _ computed_placed). intros j Hj. cbn [sp_axes sp_weights] in H.
    etransitivity; [|apply (H (nth (chosen p n m j) u 0%Qc)); apply nth_In; fold m; apply chosen_bounds; lia].
    rewrite (curve_value (Spl [a] cps None) a) by reflexivity. apply qsum_ext. intros i Hi. apply in_seq in Hi. unfold basis_value. cbn [sp_axes sp_weights]. rewrite Qcmult_comm. f_equal.
    cbn [sp_cps] in Lx. rewrite at_map with (d' := 0%Qc) by lia. reflexivity. }
  apply Forall_forall. intros x Hx. apply In_nth with (d := 0%Qc) in Hx as (i & Hi & <-). apply X. cbn [sp_cps] in Lx. lia.
Qed.
End Computed.
