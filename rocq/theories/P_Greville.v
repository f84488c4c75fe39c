(** Greville abscissae; the uniform refinement loop. *)
From Coq Require Import List Arith Lia ZArith QArith Qcanon Permutation Sorted.
From Verif Require Import Base BaseRadix BaseQc BaseSort S_Spline S_Value P_Basis P_Spline P_Value
  P_KnotInsert P_KnotGlobal M_Knots S_Knots P_Knots P_Insert.
Import ListNotations.
Local Open Scope nat_scope.

Lemma fold_left_sum (f : nat -> Qc) l a : fold_left (fun s k => s + f k)%Qc l a = (a + qsum (map f l))%Qc.
Proof. revert a; induction l; intros a0; cbn; [ring|]. rewrite IHl. ring. Qed.
Lemma qsum_le {A} (f g : A -> Qc) l : (forall x, In x l -> (f x <= g x)%Qc) -> (qsum (map f l) <= qsum (map g l))%Qc.
Proof.
  induction l as [|x l IH]; intros H; cbn; [apply Qcle_refl|].
  pose proof (H x (or_introl eq_refl)). assert (qsum (map f l) <= qsum (map g l))%Qc by (apply IH; intros; apply H; now right).
  qlra.
Qed.

Lemma greville_raw_mean p kv j :
  0 < p -> j < length kv - p - 1 ->
  nth j (greville_raw (KnotAxis p kv)) 0%Qc = mean (map (fun k => kn kv (j + 1 + k)) (seq 0 p)).
Proof.
  intros Hp Hj. cbn [greville_raw]. rewrite nth_map_seq by auto. unfold mean.
  rewrite (fold_left_sum (fun k => kn kv (k + j + 1))), map_length, seq_length.
  rewrite (qsum_ext (fun k => kn kv (k + j + 1)) (fun k => kn kv (j + 1 + k))).
  - field. now apply inj_neq0.
  - intros k _. f_equal. lia.
Qed.
Lemma mean_le {A} (f g : A -> Qc) l :
  l <> [] -> (forall x, In x l -> (f x <= g x)%Qc) -> (mean (map f l) <= mean (map g l))%Qc.
Proof.
  intros Hne H. unfold mean. rewrite !map_length. apply div_le_iff.
  - apply inj_pos. destruct l; cbn; [easy|lia].
  - now apply qsum_le.
Qed.
Lemma mean_const {A} c (l : list A) : l <> [] -> mean (map (fun _ => c) l) = c.
Proof.
  intros Hne. unfold mean. rewrite qsum_const, map_length. field. apply inj_neq0. destruct l; cbn; [easy|lia].
Qed.
Lemma nd_raw p kv : 0 < p -> non_decreasing kv -> non_decreasing (greville_raw (KnotAxis p kv)).
Proof.
  intros Hp ND i j Hij Hj.
  assert (L : length (greville_raw (KnotAxis p kv)) = length kv - p - 1) by (cbn; now rewrite map_length, seq_length).
  rewrite L in Hj. rewrite !greville_raw_mean by lia.
  apply mean_le; [now destruct p|]. intros k _. apply kn_mono; auto. lia.
Qed.

Lemma half_between x y : (x <= y)%Qc -> (x <= qc 1 2 * (x + y) /\ qc 1 2 * (x + y) <= y)%Qc.
Proof.
  intros H. assert (E : (qc 1 2 + qc 1 2 = 1)%Qc) by (apply Qc_is_canon; reflexivity).
  assert (P : (0 <= qc 1 2)%Qc) by (intros G; discriminate).
  set (h := qc 1 2) in *. clearbody h.
  replace x with ((h + h) * x)%Qc at 1 by (rewrite E; ring).
  replace y with ((h + h) * y)%Qc at 3 by (rewrite E; ring).
  assert (0 <= h * (y - x))%Qc by qnra. split; qlra.
Qed.
Lemma nd_adjacent l : (forall a, S a < length l -> (nth a l 0 <= nth (S a) l 0)%Qc) -> non_decreasing l.
Proof.
  intros H i j Hij. induction j; intros Hj; [replace i with 0 by lia; apply Qcle_refl|].
  destruct (Nat.eq_dec i (S j)) as [->|]; [apply Qcle_refl|].
  eapply Qcle_trans; [apply IHj; lia|apply H; lia].
Qed.

(** The filter keeps order, length and the first and the last value. *)
Lemma filter_inv tol lenm js : forall g prev,
  length g = lenm -> non_decreasing g -> (forall j, In j js -> 2 <= j < lenm - 1) ->
  let g' := greville_filter tol g prev js in
  length g' = lenm /\ non_decreasing g' /\ nth 0 g' 0%Qc = nth 0 g 0%Qc /\ nth (lenm - 1) g' 0%Qc = nth (lenm - 1) g 0%Qc.
Proof.
  induction js as [|j js IH]; intros g prev L ND H; cbn [greville_filter]; auto.
  assert (Hj : 2 <= j < lenm - 1) by (apply H; now left).
  assert (H' : forall i, In i js -> 2 <= i < lenm - 1) by (intros i Hi; apply H; now right).
  destruct (qltb _ tol); [|now apply IH].
  set (g1 := set_nth g (j - 1) (qc 1 2 * (nth (j - 2) g 0 + nth (j - 1) g 0))%Qc).
  set (g2 := set_nth g1 j (qc 1 2 * (nth j g1 0 + nth (j + 1) g1 0))%Qc).
  assert (L1 : length g1 = lenm) by (unfold g1; now rewrite set_nth_length).
  assert (L2 : length g2 = lenm) by (unfold g2; now rewrite set_nth_length).
  assert (E1 : forall i, nth i g1 0%Qc = if i =? j - 1 then (qc 1 2 * (nth (j - 2) g 0 + nth (j - 1) g 0))%Qc else nth i g 0%Qc).
  { intros i. unfold g1. apply set_nth_nth. lia. }
  assert (E2 : forall i, nth i g2 0%Qc = if i =? j then (qc 1 2 * (nth j g 0 + nth (j + 1) g 0))%Qc else
       if i =? j - 1 then (qc 1 2 * (nth (j - 2) g 0 + nth (j - 1) g 0))%Qc else nth i g 0%Qc).
  { intros i. unfold g2. rewrite set_nth_nth by lia. rewrite !E1.
    destruct (Nat.eqb_spec j (j - 1)); [lia|]. destruct (Nat.eqb_spec (j + 1) (j - 1)); [lia|]. reflexivity. }
  assert (M : forall a b, a <= b -> b < lenm -> (nth a g 0 <= nth b g 0)%Qc).
  { intros a b Hab Hb. apply ND; lia. }
  assert (ND2 : non_decreasing g2).
  { apply nd_adjacent. rewrite L2. intros a Ha. rewrite !E2.
    pose proof (M (j - 2) (j - 1) ltac:(lia) ltac:(lia)) as M1. pose proof (M (j - 1) j ltac:(lia) ltac:(lia)) as M2.
    pose proof (M j (j + 1) ltac:(lia) ltac:(lia)) as M3.
    pose proof (M a (S a) ltac:(lia) ltac:(lia)) as M4.
    destruct (half_between _ _ M1) as [A1 A2]. destruct (half_between _ _ M3) as [B1 B2].
    destruct (Nat.eqb_spec a j) as [Ea|]; [|destruct (Nat.eqb_spec a (j - 1)) as [Ea|]];
      (destruct (Nat.eqb_spec (S a) j) as [Eb|]; [|destruct (Nat.eqb_spec (S a) (j - 1)) as [Eb|]]); try lia; auto.
    - replace (S a) with (j + 1) by lia. auto.
    - qlra.
    - replace a with (j - 2) by lia. auto. }
  destruct (IH g2 prev L2 ND2 H') as (I1 & I2 & I3 & I4). repeat (split; auto).
  - fold g2. rewrite I3, E2. destruct (Nat.eqb_spec 0 j); [lia|]. destruct (Nat.eqb_spec 0 (j - 1)); [lia|auto].
  - fold g2. rewrite I4, E2. destruct (Nat.eqb_spec (lenm - 1) j); [lia|].
    destruct (Nat.eqb_spec (lenm - 1) (j - 1)); [lia|auto].
Qed.

(** C17 *)
Lemma greville_values p kv tol : 0 < p -> (tol <= 0)%Qc ->
  exists g, greville (KnotAxis p kv) tol = Some g /\ length g = ax_n (KnotAxis p kv) /\
    forall j, j < length g -> nth j g 0%Qc = mean (map (fun k => kn kv (j + 1 + k)) (seq 0 p)).
Proof.
  intros Hp Ht. unfold greville. cbn [ax_degree]. destruct (Nat.eqb_spec p 0); [lia|].
  destruct (qltb_spec 0 tol); [exfalso; qlra|]. eexists. split; [reflexivity|].
  assert (L : length (greville_raw (KnotAxis p kv)) = length kv - p - 1) by (cbn; now rewrite map_length, seq_length).
  split; [rewrite L; cbn; lia|]. intros j Hj. rewrite L in Hj. now apply greville_raw_mean.
Qed.
Lemma greville_ordered p n kv tol : 0 < p -> knot_vector p n kv ->
  exists g, greville (KnotAxis p kv) tol = Some g /\ length g = n /\ non_decreasing g /\
    (clamped_ends p kv -> forall x, In x g -> (kn kv p <= x)%Qc /\ (x <= kn kv n)%Qc).
Proof.
  intros Hp K. pose proof (kv_degree _ _ _ K) as Hpn. pose proof K as (L & ND & _).
  pose proof (kn_mono kv ND) as M.
  set (g0 := greville_raw (KnotAxis p kv)).
  assert (L0 : length g0 = n) by (cbn; rewrite map_length, seq_length; lia).
  assert (N0 : non_decreasing g0) by now apply nd_raw.
  assert (B0 : clamped_ends p kv -> (kn kv p <= nth 0 g0 0)%Qc /\ (nth (n - 1) g0 0 <= kn kv n)%Qc).
  { intros [C1 C2]. unfold g0. rewrite !greville_raw_mean by lia.
    replace (length kv - p - 1) with n in C2 by lia.
    assert (Hne : seq 0 p <> []) by now destruct p. split.
    - rewrite <- (mean_const (kn kv p) (seq 0 p) Hne) at 1. apply mean_le; auto. intros k _.
      rewrite <- C1. apply M. lia.
    - rewrite <- (mean_const (kn kv n) (seq 0 p) Hne). apply mean_le; auto. intros k Hk. apply in_seq in Hk.
      rewrite C2. apply M. lia. }
  unfold greville. cbn [ax_degree]. destruct (Nat.eqb_spec p 0); [lia|]. fold g0.
  assert (Fin : forall g, length g = n -> non_decreasing g -> nth 0 g 0%Qc = nth 0 g0 0%Qc ->
      nth (n - 1) g 0%Qc = nth (n - 1) g0 0%Qc ->
      clamped_ends p kv -> forall x, In x g -> (kn kv p <= x)%Qc /\ (x <= kn kv n)%Qc).
  { intros g Lg Ng E0 E1 C x Hx. destruct (B0 C) as [B1 B2]. destruct (In_nth _ _ 0%Qc Hx) as (i & Hi & <-).
    pose proof (Ng 0 i ltac:(lia) Hi). pose proof (Ng i (n - 1) ltac:(lia) ltac:(lia)).
    rewrite E0 in *. rewrite E1 in *. split; qlra. }
  destruct (qltb 0 tol).
  - destruct (filter_inv tol n (seq 2 (length g0 - 3)) g0 (nth 1 g0 0%Qc) L0 N0) as (I1 & I2 & I3 & I4).
    { intros j Hj. apply in_seq in Hj. lia. }
    eexists. split; [reflexivity|]. split; [exact I1|]. split; [exact I2|]. now apply Fin.
  - exists g0. split; auto. split; auto. split; auto. now apply Fin.
Qed.
Lemma bezier_greville p tol : 0 < p ->
  exists g, greville (BezierAxis p) tol = Some g /\ length g = p + 1 /\ non_decreasing g /\
    nth 0 g 0%Qc = 0%Qc /\ nth p g 0%Qc = 1%Qc /\ forall j, j <= p -> nth j g 0%Qc = (inj j / inj p)%Qc.
Proof.
  intros Hp. unfold greville. cbn [ax_degree]. destruct (Nat.eqb_spec p 0); [lia|].
  eexists. split; [reflexivity|]. cbn [greville_raw]. rewrite map_length, seq_length. split; auto.
  pose proof (inj_pos p Hp) as Pp.
  assert (V : forall j, j <= p -> nth j (map (fun j => (/ inj p * inj j)%Qc) (seq 0 (p + 1))) 0%Qc = (inj j / inj p)%Qc).
  { intros j Hj. rewrite nth_map_seq by lia. unfold Qcdiv. ring. }
  split; [|split; [|split]].
  - intros i j Hij Hj. rewrite map_length, seq_length in Hj. rewrite !V by lia. apply div_le_iff; auto. now apply inj_le.
  - rewrite V by lia. change (inj 0) with 0%Qc. field. now apply inj_neq0.
  - rewrite V by lia. field. now apply inj_neq0.
  - exact V.
Qed.
Lemma greville_degree0 a tol : ax_degree a = 0 -> greville a tol = None.
Proof. intros H. unfold greville. now rewrite H. Qed.

(** * The uniform_refine loop (C14) *)
Section Loop.
Variables (ins : list Qc -> Qc -> nat -> list Qc) (epsk epsd : Qc).
Hypothesis HI : inserts_new ins.
Hypothesis Hk : (0 < epsk)%Qc.
Hypothesis Hd : (0 < epsd)%Qc.
Lemma nth_error_set {A} (l : list A) k x j :
  k < length l -> nth_error (set_nth l k x) j = if j =? k then Some x else nth_error l j.
Proof.
  revert k j; induction l as [|y l IH]; intros [|k] [|j] H; cbn in H; try lia; auto.
  change (set_nth (y :: l) (S k) x) with (y :: set_nth l k x). cbn [nth_error Nat.eqb]. apply IH. lia.
Qed.

Lemma refine_loop_spec todo : forall axes,
  NoDup (map fst todo) ->
  (forall k n, In (k, n) todo -> exists a, nth_error axes k = Some a /\ refinable epsk epsd a n) ->
  exists axes', refine_loop ins epsk epsd axes todo = Some axes' /\ length axes' = length axes /\
    (forall k n a, In (k, n) todo -> nth_error axes k = Some a ->
       exists a', nth_error axes' k = Some a' /\ refined a a' n) /\
    (forall k, ~ In k (map fst todo) -> nth_error axes' k = nth_error axes k).
Proof.
  induction todo as [|[k n] todo IH]; intros axes ND H; cbn [refine_loop].
  - exists axes. repeat split; auto. easy.
  - inversion ND as [|? ? Hk0 ND']; subst. cbn [fst] in *.
    destruct (H k n (or_introl eq_refl)) as ((p & kv) & E & m & K & Sp). rewrite E.
    destruct (refine_axis_spec ins p HI epsk epsd m kv n K Hk Hd Sp) as (kv' & new & R & N' & P' & RS).
    rewrite R. assert (Lk : k < length axes) by (apply nth_error_Some; congruence).
    destruct (IH (set_nth axes k (p, kv')) ND') as (axes' & E' & L' & A' & B').
    { intros j nj Hj. destruct (H j nj (or_intror Hj)) as (a & Ea & Ra). exists a. split; auto.
      rewrite nth_error_set by auto. destruct (Nat.eqb_spec j k) as [->|]; auto.
      exfalso. apply Hk0. apply in_map_iff. now exists (k, nj). }
    exists axes'. split; auto. rewrite set_nth_length in L'. split; auto. split.
    + intros j nj a [Hj|Hj] Ea.
      * inversion Hj; subst. rewrite B' by auto. rewrite nth_error_set, Nat.eqb_refl by auto.
        eexists. split; [reflexivity|]. rewrite E in Ea. inversion Ea; subst. exists new. cbn. auto.
      * apply A' with (n := nj); auto. rewrite nth_error_set by auto.
        destruct (Nat.eqb_spec j k) as [->|]; auto. exfalso. apply Hk0. apply in_map_iff. now exists (k, nj).
    + intros j Hj. cbn [map fst] in Hj. rewrite B' by (intros G; apply Hj; now right).
      rewrite nth_error_set by auto. destruct (Nat.eqb_spec j k) as [->|]; auto. exfalso. apply Hj. now left.
Qed.
End Loop.
