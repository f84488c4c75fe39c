(** Proofs about fitting: parameters and knot vectors. *)
From Coq Require Import List Arith ZArith Lia Bool QArith Qcanon Qround.
From Verif Require Import Base BaseQc S_Spline P_Spline S_Value P_Value M_Core S_Core P_Core S_Solve P_Solve M_Create M_Fit S_Fit.
Import ListNotations.
Local Open Scope list_scope.
Local Open Scope nat_scope.

(** * Knot vectors *)
Lemma inner_map_seq {A} (f : nat -> A) s n : inner (map f (seq s (n + 2))) = map f (seq (S s) n).
Proof.
  unfold inner. replace (n + 2) with (S (S n)) by lia. cbn [seq map tl].
  change (f (S s) :: map f (seq (S (S s)) n)) with (map f (seq (S s) (S n))).
  rewrite seq_S, map_app. cbn [map]. apply removelast_last.
Qed.

Lemma at_map_seq {A} (f : nat -> A) s n i d : i < n -> nth i (map f (seq s n)) d = f (s + i).
Proof.
  intros H. rewrite nth_indep with (d' := f 0) by (rewrite map_length, seq_length; lia). rewrite map_nth. now rewrite seq_nth.
Qed.
Lemma repeat_nth {A} (x : A) n i d : i < n -> nth i (repeat x n) d = x.
Proof. revert i. induction n as [|n IH]; intros i H; [lia|]. destruct i; cbn; auto. apply IH. lia. Qed.

Lemma assembled p n (g : nat -> Qc) : p < n ->
  (forall i j, 1 <= i -> i <= j -> j < n - p -> (g i <= g j)%Qc) ->
  (forall i, 1 <= i -> i < n - p -> (0 <= g i)%Qc /\ (g i <= 1)%Qc) ->
  let kv := repeat 0%Qc (p + 1) ++ map g (seq 1 (n - p - 1)) ++ repeat 1%Qc (p + 1) in
  unit_knots p n kv /\ forall i, p < i -> i < n -> nth i kv 0%Qc = g (i - p).
Proof.
  intros Hp Hm Hb kv.
  assert (length kv = n + p + 1) as L. { unfold kv. rewrite !app_length, !repeat_length, map_length, seq_length. lia. }
  assert (forall i, i <= p -> nth i kv 0%Qc = 0%Qc) as N0.
  { intros i Hi. unfold kv. rewrite app_nth1 by (rewrite repeat_length; lia). apply repeat_nth. lia. }
  assert (forall i, p < i -> i < n -> nth i kv 0%Qc = g (i - p)) as N1.
  { intros i Hi Hi2. unfold kv. rewrite app_nth2 by (rewrite repeat_length; lia). rewrite repeat_length.
    rewrite app_nth1 by (rewrite map_length, seq_length; lia).
    rewrite nth_indep with (d' := g 0) by (rewrite map_length, seq_length; lia).
    rewrite (map_nth g). rewrite seq_nth by lia. f_equal. lia. }
  assert (forall i, n <= i < n + p + 1 -> nth i kv 0%Qc = 1%Qc) as N2.
  { intros i Hi. unfold kv. rewrite app_nth2 by (rewrite repeat_length; lia). rewrite repeat_length.
    rewrite app_nth2 by (rewrite map_length, seq_length; lia). rewrite map_length, seq_length. apply repeat_nth. lia. }
  split; [|exact N1]. refine (conj L (conj _ (conj N0 N2))).
  intros i j Hij Hj. rewrite L in Hj.
  assert (0 <= 1)%Qc as H01 by discriminate.
  destruct (le_lt_dec i p) as [A|A].
  - rewrite (N0 i A). destruct (le_lt_dec j p) as [B|B]; [rewrite N0 by auto; apply Qcle_refl|].
    destruct (le_lt_dec n j) as [C|C]; [rewrite N2 by lia; auto|]. rewrite N1 by auto. apply Hb; lia.
  - destruct (le_lt_dec n i) as [B|B]; [rewrite !N2 by lia; apply Qcle_refl|]. rewrite (N1 i) by auto.
    destruct (le_lt_dec n j) as [C|C]; [rewrite N2 by lia; apply Hb; lia|]. rewrite N1 by lia. apply Hm; lia.
Qed.

Lemma window_sum (u : list Qc) p i : i + p <= length u ->
  qsum (firstn p (skipn i u)) = qsum (map (fun k => nth (i + k) u 0%Qc) (seq 0 p)).
Proof.
  revert i. induction p as [|p IH]; intros i H; [reflexivity|].
  assert (skipn i u = nth i u 0%Qc :: skipn (S i) u) as ->.
  { clear -H. revert u H. induction i as [|i IH]; intros [|x u] H; cbn in *; try lia; auto. rewrite IH by lia. reflexivity. }
  cbn [firstn seq map qsum fold_right]. cbn [seq map]. 
  change (qsum (nth i u 0%Qc :: firstn p (skipn (S i) u))) with (nth i u 0 + qsum (firstn p (skipn (S i) u)))%Qc.
  rewrite IH by lia.
  change (qsum (nth (i + 0) u 0%Qc :: map (fun k => nth (i + k) u 0%Qc) (seq 1 p))) with
    (nth (i + 0) u 0 + qsum (map (fun k => nth (i + k) u 0) (seq 1 p)))%Qc.
  rewrite Nat.add_0_r. f_equal. rewrite <- seq_shift, map_map. f_equal. apply map_ext. intros k. f_equal. lia.
Qed.

Lemma qsum_le {A} (f g : A -> Qc) l : (forall x, In x l -> (f x <= g x)%Qc) -> (qsum (map f l) <= qsum (map g l))%Qc.
Proof.
  induction l as [|x l IH]; intros H; [apply Qcle_refl|]. cbn. apply Qcplus_le_compat; [apply H; now left|].
  apply IH. intros y Hy. apply H. now right.
Qed.
Lemma qsum_lt {A} (f g : A -> Qc) l x0 : In x0 l -> (forall x, In x l -> (f x <= g x)%Qc) -> (f x0 < g x0)%Qc ->
  (qsum (map f l) < qsum (map g l))%Qc.
Proof.
  induction l as [|x l IH]; intros Hi H Hlt; [easy|]. cbn. change (fold_right Qcplus 0%Qc) with qsum.
  assert (f x <= g x)%Qc as H1 by (apply H; now left).
  assert (forall y, In y l -> (f y <= g y)%Qc) as H2 by (intros; apply H; now right).
  destruct Hi as [->|Hi].
  - pose proof (qsum_le f g l H2). clear IH H H2. qlra.
  - pose proof (IH Hi H2 Hlt). clear IH H H2. qlra.
Qed.

Lemma qsum_positive {A} (f : A -> Qc) l x0 : In x0 l -> (forall x, In x l -> (0 <= f x)%Qc) -> (0 < f x0)%Qc -> (0 < qsum (map f l))%Qc.
Proof.
  intros Hi H P. pose proof (qsum_lt (fun _ => 0%Qc) f l x0 Hi H P) as Q. rewrite qsum_zero in Q by auto. exact Q.
Qed.

(** Averages, interpolation case. *)
Definition average (u : list Qc) (p i : nat) : Qc := (qsum (firstn p (skipn i u)) / inj p)%Qc.
Definition sorted01 (u : list Qc) : Prop := non_decreasing u /\ forall i, i < length u -> (0 <= nth i u 0)%Qc /\ (nth i u 0 <= 1)%Qc.
Lemma average_le u p i j : 0 < p -> non_decreasing u -> i <= j -> j + p <= length u -> (average u p i <= average u p j)%Qc.
Proof.
  intros Hp Hu Hij Hj. unfold average. rewrite !window_sum by lia. unfold Qcdiv. apply Qcmult_le_compat_r.
  - apply qsum_le. intros k Hk. apply in_seq in Hk. apply Hu; lia.
  - apply Qclt_le_weak, Qc_inv_pos, inj_pos; auto.
Qed.
Lemma average_bound u p i : 0 < p -> sorted01 u -> i + p <= length u -> (0 <= average u p i)%Qc /\ (average u p i <= 1)%Qc.
Proof.
  intros Hp [_ Hb] Hi. unfold average. rewrite window_sum by lia. pose proof (inj_pos p Hp) as P. split.
  - apply Qc_div_nonneg; [|now apply Qclt_le_weak]. apply qsum_nonneg. intros k Hk. apply in_seq in Hk. apply Hb. lia.
  - apply Qc_div_le; auto. rewrite Qcmult_1_l.
    rewrite <- (Qcmult_1_r (inj p)). rewrite <- (seq_length p 0) at 2. rewrite <- qsum_const.
    apply qsum_le. intros k Hk. apply in_seq in Hk. apply Hb. lia.
Qed.

(** Blends, approximation case. *)
Lemma floor_nat x : (0 <= x)%Qc -> let i := Z.to_nat (Qfloor (this x)) in (inj i <= x)%Qc /\ (x < inj (i + 1))%Qc.
Proof.
  intros H i. assert (0 <= Qfloor (this x))%Z as F.
  { change 0%Z with (Qfloor 0). apply Qfloor_resp_le. exact H. }
  assert (this (inj i) == inject_Z (Qfloor (this x)))%Q as E1.
  { unfold inj, i. rewrite this_Q2Qc. rewrite Z2Nat.id by auto. reflexivity. }
  split.
  - unfold Qcle. rewrite E1. apply Qfloor_le.
  - unfold Qclt. replace (i + 1) with (S i) by lia. rewrite inj_S, this_add, E1.
    pose proof (Qlt_floor (this x)) as L. rewrite inject_Z_plus in L. exact L.
Qed.
Definition blend (u : list Qc) (x : Qc) : Qc :=
  let i := Z.to_nat (Qfloor (this x)) in
  ((1 - (x - inj i)) * nth (i - 1) u 0 + (x - inj i) * nth i u 0)%Qc.
Lemma floor_index x m : (1 <= x)%Qc -> (x < inj m)%Qc -> let i := Z.to_nat (Qfloor (this x)) in 1 <= i < m.
Proof.
  intros H1 H2 i. destruct (floor_nat x) as [A B]; [apply Qcle_trans with 1%Qc; [discriminate|auto]|]. fold i in A, B. split.
  - destruct i as [|i]; [|lia]. exfalso. cbn [Nat.add] in B. rewrite inj_1 in B. now apply (Qcle_not_lt _ _ H1).
  - destruct (le_lt_dec m i) as [C|C]; auto. exfalso. pose proof (inj_le _ _ C). qlra.
Qed.
Lemma blended_some u x : (1 <= x)%Qc -> (x < inj (length u))%Qc -> blended u x = Some (blend u x).
Proof.
  intros H1 H2. destruct (floor_index x _ H1 H2) as [A B]. unfold blended, blend. cbv zeta.
  set (i := Z.to_nat (Qfloor (this x))) in *.
  rewrite (nth_error_nth' u 0%Qc) by lia. rewrite (nth_error_nth' u 0%Qc) by lia. reflexivity.
Qed.
Lemma blend_between u x : non_decreasing u -> (1 <= x)%Qc -> (x < inj (length u))%Qc ->
  let i := Z.to_nat (Qfloor (this x)) in (nth (i - 1) u 0 <= blend u x)%Qc /\ (blend u x <= nth i u 0)%Qc.
Proof.
  intros Hu H1 H2 i. destruct (floor_index x _ H1 H2) as [A B]. fold i in A, B.
  destruct (floor_nat x) as [F1 F2]; [apply Qcle_trans with 1%Qc; [discriminate|auto]|]. fold i in F1, F2.
  unfold blend. cbv zeta. fold i. pose proof (Hu (i - 1) i ltac:(lia) ltac:(lia)) as D.
  set (a := nth (i - 1) u 0%Qc) in *. set (b := nth i u 0%Qc) in *.
  replace (i + 1) with (S i) in F2 by lia. rewrite inj_S in F2.
  set (t := (x - inj i)%Qc). assert (0 <= t)%Qc by (unfold t; qlra). assert (t <= 1)%Qc by (unfold t; qlra).
  clearbody a b t. split; qnra.
Qed.
Lemma blend_mono u x y : non_decreasing u -> (1 <= x)%Qc -> (x <= y)%Qc -> (y < inj (length u))%Qc -> (blend u x <= blend u y)%Qc.
Proof.
  intros Hu H1 Hxy H2. assert (x < inj (length u))%Qc as Hx by qlra. assert (1 <= y)%Qc as Hy by qlra.
  destruct (floor_index x _ H1 Hx) as [A B]. destruct (floor_index y _ Hy H2) as [A' B'].
  destruct (blend_between u x Hu H1 Hx) as [C1 C2]. destruct (blend_between u y Hu Hy H2) as [C1' C2'].
  destruct (floor_nat x) as [F1 F2]; [apply Qcle_trans with 1%Qc; [discriminate|auto]|].
  destruct (floor_nat y) as [F1' F2']; [apply Qcle_trans with 1%Qc; [discriminate|auto]|].
  set (i := Z.to_nat (Qfloor (this x))) in *. set (j := Z.to_nat (Qfloor (this y))) in *.
  destruct (lt_eq_lt_dec i j) as [[L|E]|L].
  - apply Qcle_trans with (nth i u 0%Qc); auto. apply Qcle_trans with (nth (j - 1) u 0%Qc); auto. apply Hu; lia.
  - unfold blend. cbv zeta. fold i j. rewrite <- E in *. pose proof (Hu (i - 1) i ltac:(lia) ltac:(lia)) as D.
    set (a := nth (i - 1) u 0%Qc) in *. set (b := nth i u 0%Qc) in *. clearbody a b.
    assert (0 <= (y - x) * (b - a))%Qc as P by (apply Qc_mul_nonneg; qlra).
    set (z := (y - x)%Qc) in *. replace y with (z + x)%Qc by (unfold z; ring). clear -P. qlra.
  - exfalso. pose proof (inj_le (j + 1) i ltac:(lia)). qlra.
Qed.

Definition step (n p m j : nat) : Qc := (inj j * (inj m / inj (n - p)))%Qc.
Lemma step_bounds n p m j : p < n -> n <= m -> 1 <= j -> j < n - p -> (1 <= step n p m j)%Qc /\ (step n p m j < inj m)%Qc.
Proof.
  intros Hp Hm H1 H2. unfold step. pose proof (inj_pos (n - p) ltac:(lia)) as P.
  assert (inj j * (inj m / inj (n - p)) = inj j * inj m / inj (n - p))%Qc as -> by (unfold Qcdiv; ring). split.
  - apply Qc_le_div; auto. rewrite Qcmult_1_l. rewrite <- inj_mul. apply inj_le. nia.
  - assert (inj j * inj m < inj m * inj (n - p))%Qc as Q by (rewrite <- !inj_mul; apply inj_lt; nia).
    apply (Qcmult_lt_compat_r _ _ (/ inj (n - p))%Qc) in Q; [|now apply Qc_inv_pos].
    replace (inj m * inj (n - p) * / inj (n - p))%Qc with (inj m) in Q; auto.
    field. intro E. rewrite E in P. discriminate P.
Qed.
Lemma step_mono n p m i j : p < n -> i <= j -> (step n p m i <= step n p m j)%Qc.
Proof.
  intros Hp H. unfold step. apply Qcmult_le_compat_r; [now apply inj_le|].
  apply Qc_div_nonneg; [apply inj_nonneg|]. apply inj_nonneg.
Qed.

Lemma all_some_map {A B} (f : A -> option B) (g : A -> B) l : (forall x, In x l -> f x = Some (g x)) -> all_some (map f l) = Some (map g l).
Proof.
  induction l as [|x l IH]; intros H; [reflexivity|]. cbn. rewrite (H x) by now left. rewrite IH; auto. intros; apply H; now right.
Qed.

(** The inner knots as a function. *)
Definition inner_knot (p n : nat) (u : list Qc) (m j : nat) : Qc :=
  if m =? n then average u p j else blend u (step n p m j).
Lemma computed_eq p n u m : p < n -> n <= m -> length u = m -> (m = n -> 0 < p) ->
  compute_knot_vector p n u m =
  Some (repeat 0%Qc (p + 1) ++ map (inner_knot p n u m) (seq 1 (n - p - 1)) ++ repeat 1%Qc (p + 1)).
Proof.
  intros Hp Hm L Hz. unfold compute_knot_vector, inner_knot. destruct (Nat.eqb_spec m n) as [E|E].
  - destruct (Nat.eqb_spec p 0); [lia|]. rewrite L, E. replace (n - p + 1) with ((n - p - 1) + 2) by lia.
    rewrite inner_map_seq. reflexivity.
  - rewrite (all_some_map _ (fun j => blend u (step n p m j))); [reflexivity|].
    intros j Hj. apply in_seq in Hj. destruct (step_bounds n p m j) as [A B]; try lia.
    unfold step in *. apply blended_some; auto. now rewrite L.
Qed.
Lemma computed_knots p n u m : p < n -> n <= m -> length u = m -> (m = n -> 0 < p) -> sorted01 u ->
  exists kv, compute_knot_vector p n u m = Some kv /\ unit_knots p n kv /\
    forall i, p < i -> i < n -> nth i kv 0%Qc = inner_knot p n u m (i - p).
Proof.
  intros Hp Hm L Hz Hu. rewrite computed_eq by auto. eexists. split; [reflexivity|]. apply assembled; auto.
  - intros i j H1 Hij Hj. unfold inner_knot. destruct (Nat.eqb_spec m n) as [E|E].
    + apply average_le; try lia. apply Hu.
    + destruct (step_bounds n p m i), (step_bounds n p m j); try lia. apply blend_mono; auto; [apply Hu|now apply step_mono|now rewrite L].
  - intros i H1 Hi. unfold inner_knot. destruct (Nat.eqb_spec m n) as [E|E].
    + apply average_bound; auto; lia.
    + destruct (step_bounds n p m i) as [B1 B2]; try lia. assert (step n p m i < inj (length u))%Qc as B3 by now rewrite L. clear B2.
      destruct (blend_between u (step n p m i)) as [C1 C2]; auto; [apply Hu|].
      destruct (floor_index _ _ B1 B3). split.
      * eapply Qcle_trans; [|exact C1]. apply Hu. lia.
      * eapply Qcle_trans; [exact C2|]. apply Hu. lia.
Qed.

(** Strictly increasing parameters give strictly clamped knots. *)
Lemma first_inner_pos p n u m : p + 1 < n -> n <= m -> length u = m -> (m = n -> 0 < p) -> increasing u ->
  nth 0 u 0%Qc = 0%Qc -> (0 < inner_knot p n u m 1)%Qc.
Proof.
  intros Hp Hm L Hz Hu H0. assert (forall i, 1 <= i -> i < m -> (0 < nth i u 0)%Qc) as P.
  { intros i A B. rewrite <- H0 at 1. apply Hu; lia. }
  unfold inner_knot. destruct (Nat.eqb_spec m n) as [E|E].
  - unfold average. rewrite window_sum by lia. unfold Qcdiv.
    apply Qc_mul_pos; [|apply Qc_inv_pos, inj_pos; auto].
    apply qsum_positive with 0; [apply in_seq; lia| |apply P; lia].
    intros k Hk. apply in_seq in Hk. apply Qclt_le_weak, P; lia.
  - destruct (step_bounds n p m 1) as [B1 B2]; try lia. destruct (floor_index _ _ B1 B2) as [F1 F2].
    destruct (floor_nat (step n p m 1)) as [G1 G2]; [apply Qcle_trans with 1%Qc; [discriminate|auto]|].
    unfold blend. cbv zeta. set (i := Z.to_nat (Qfloor (this (step n p m 1)))) in *.
    replace (i + 1) with (S i) in G2 by lia. rewrite inj_S in G2.
    assert (0 <= step n p m 1 - inj i)%Qc as T0 by qlra. assert (0 < 1 - (step n p m 1 - inj i))%Qc as T1 by qlra.
    destruct (Nat.eq_dec i 1) as [I|I].
    + rewrite I in *. cbn [Nat.sub]. rewrite H0. rewrite Qcmult_0_r, Qcplus_0_l. apply Qc_mul_pos; [|apply P; lia].
      rewrite inj_1. assert (1 < step n p m 1)%Qc; [|qlra]. unfold step. rewrite inj_1, Qcmult_1_l.
      pose proof (inj_pos (n - p) ltac:(lia)) as Q. pose proof (inj_lt (n - p) m ltac:(lia)) as R.
      apply (Qcmult_lt_compat_r _ _ (/ inj (n - p))%Qc) in R; [|now apply Qc_inv_pos].
      replace (inj (n - p) * / inj (n - p))%Qc with 1%Qc in R; auto. field. intro K. rewrite K in Q. discriminate Q.
    + pose proof (P (i - 1) ltac:(lia) ltac:(lia)) as A. pose proof (P i ltac:(lia) ltac:(lia)) as B.
      pose proof (Qc_mul_pos _ _ T1 A). pose proof (Qc_mul_nonneg _ _ T0 (Qclt_le_weak _ _ B)). qlra.
Qed.
Lemma last_inner_small p n u m : p + 1 < n -> n <= m -> length u = m -> (m = n -> 0 < p) -> increasing u ->
  last u 0%Qc = 1%Qc -> (inner_knot p n u m (n - p - 1) < 1)%Qc.
Proof.
  intros Hp Hm L Hz Hu H1. rewrite last_nth in H1. assert (forall i, i + 1 < m -> (nth i u 0 < 1)%Qc) as P.
  { intros i A. rewrite <- H1. apply Hu; lia. }
  unfold inner_knot. destruct (Nat.eqb_spec m n) as [E|E].
  - unfold average. rewrite window_sum by lia. pose proof (inj_pos p ltac:(lia)) as Q.
    assert (qsum (map (fun k => nth (n - p - 1 + k) u 0) (seq 0 p)) < inj p)%Qc as R.
    { rewrite <- (Qcmult_1_r (inj p)). rewrite <- (seq_length p 0) at 2. rewrite <- qsum_const.
      apply qsum_lt with 0; [apply in_seq; lia| |apply P; lia].
      intros k Hk. apply in_seq in Hk. apply Qclt_le_weak, P; lia. }
    apply (Qcmult_lt_compat_r _ _ (/ inj p)%Qc) in R; [|now apply Qc_inv_pos].
    replace (inj p * / inj p)%Qc with 1%Qc in R; auto. field. intro K. rewrite K in Q. discriminate Q.
  - destruct (step_bounds n p m (n - p - 1)) as [B1 B2]; try lia. destruct (floor_index _ _ B1 B2) as [F1 F2].
    destruct (floor_nat (step n p m (n - p - 1))) as [G1 G2]; [apply Qcle_trans with 1%Qc; [discriminate|auto]|].
    unfold blend. cbv zeta. set (i := Z.to_nat (Qfloor (this (step n p m (n - p - 1))))) in *.
    replace (i + 1) with (S i) in G2 by lia. rewrite inj_S in G2. set (x := step n p m (n - p - 1)) in *.
    assert (0 <= x - inj i)%Qc as T0 by qlra. assert (0 < 1 - (x - inj i))%Qc as T1 by qlra.
    pose proof (P (i - 1) ltac:(lia)) as A. assert (nth i u 0 <= 1)%Qc as B.
    { destruct (Nat.eq_dec i (m - 1)) as [I|I]; [rewrite I, <- L, H1; apply Qcle_refl|]. apply Qclt_le_weak, P. lia. }
    assert (0 < (1 - (x - inj i)) * (1 - nth (i - 1) u 0))%Qc as Q1 by (apply Qc_mul_pos; auto; qlra).
    assert (0 <= (x - inj i) * (1 - nth i u 0))%Qc as Q2 by (apply Qc_mul_nonneg; auto; qlra).
    clear -Q1 Q2. qlra.
Qed.

(** * Parameters *)
Section Parameters.
Variable O : fit_oracles.
Hypothesis M : measuring O.

Lemma chords_length c line : length (chords O c line) = length line - 1.
Proof.
  clear M. induction line as [|p [|q rest] IH]; [reflexivity|reflexivity|]. cbn [chords length] in *. rewrite IH. lia.
Qed.
Definition chord (c : bool) (p q : list Qc) : Qc := let l := f_norm O (row_sub q p) in if c then f_sqrt O l else l.
Lemma chords_nth c line i : S i < length line -> nth i (chords O c line) 0%Qc = chord c (nth i line []) (nth (S i) line []).
Proof.
  clear M. revert i. induction line as [|p [|q rest] IH]; intros i H; [cbn in H; lia|cbn in H; lia|].
  destruct i as [|i]; [reflexivity|]. cbn [length] in *. specialize (IH i ltac:(lia)). exact IH.
Qed.
Lemma chord_nonneg c p q : (0 <= chord c p q)%Qc.
Proof. unfold chord. destruct (proj1 M (row_sub q p)) as [A _]. destruct c; auto. now apply (proj2 M). Qed.
Lemma row_sub_zero p q : length p = length q -> Forall (fun x => x = 0%Qc) (row_sub q p) -> p = q.
Proof.
  clear M. unfold row_sub. revert q. induction p as [|x p IH]; intros [|y q] L F; try discriminate L; auto. cbn in F.
  inversion F; subst. f_equal; [|apply IH; auto]. assert (y - x = 0)%Qc as E by auto. replace x with (x + 0)%Qc by ring. rewrite <- E. ring.
Qed.
Lemma chord_pos c p q : length p = length q -> p <> q -> (0 < chord c p q)%Qc.
Proof.
  intros L N. pose proof (chord_nonneg c p q) as H.
  destruct (Qclt_le_dec 0 (chord c p q)) as [|H2]; auto. exfalso. apply N. apply row_sub_zero; auto.
  assert (chord c p q = 0%Qc) as E by (apply Qcle_antisym; auto). unfold chord in E. destruct (proj1 M (row_sub q p)) as [A B].
  destruct c; apply B; auto. now apply (proj2 M).
Qed.

Lemma cumsum_length acc l : length (cumsum acc l) = length l.
Proof. clear M. revert acc. induction l; intros; cbn; auto. Qed.
Lemma cumsum_nth acc l i : i < length l -> nth i (cumsum acc l) 0%Qc = (acc + qsum (firstn (S i) l))%Qc.
Proof.
  clear M. revert acc i. induction l as [|x l IH]; intros acc i H; [cbn in H; lia|]. cbn [cumsum firstn]. destruct i as [|i].
  - cbn. ring.
  - cbn [nth]. rewrite IH by (cbn in H; lia). change (qsum (x :: firstn (S i) l)) with (x + qsum (firstn (S i) l))%Qc. ring.
Qed.
Lemma firstn_map_div l t i : qsum (firstn i (map (fun x => x / t)%Qc l)) = (qsum (firstn i l) / t)%Qc.
Proof.
  clear M. rewrite firstn_map. unfold Qcdiv. rewrite qsum_map_mul_r with (f := fun x => x). now rewrite map_id.
Qed.

(** Fraction of the length of a line up to point i; mean over the lines. *)
Definition fraction (c : bool) (line : mat) (i : nat) : Qc := (qsum (firstn i (chords O c line)) / qsum (chords O c line))%Qc.
Definition parameter (c : bool) (lines : list mat) (i : nat) : Qc :=
  (qsum (map (fun l => fraction c l i) lines) / inj (length lines))%Qc.

Lemma line_parameters_nth c line i : qsum (chords O c line) <> 0%Qc -> S i < length line ->
  nth i (line_parameters O c line) None = Some (fraction c line (S i)).
Proof.
  clear M. intros Ht Hi. unfold line_parameters. cbv zeta. destruct (qeqb_spec (qsum (chords O c line)) 0); [contradiction|].
  pose proof (chords_length c line) as L.
  rewrite nth_indep with (d' := Some 0%Qc) by (rewrite map_length, cumsum_length, map_length; lia).
  rewrite (map_nth Some). f_equal. rewrite cumsum_nth by (rewrite map_length; lia). rewrite firstn_map_div.
  unfold fraction. ring.
Qed.

Lemma axis_parameters_eq c n lines : lines <> [] ->
  (forall l, In l lines -> length l = n /\ qsum (chords O c l) <> 0%Qc) ->
  axis_parameters O c n lines = Some (map Some (map (parameter c lines) (seq 0 n))) /\ 2 <= n.
Proof.
  clear M. intros Hne H. assert (2 <= n) as Hn.
  { destruct lines as [|l lines]; [contradiction|]. destruct (H l (or_introl eq_refl)) as [L T].
    destruct (le_lt_dec 2 n); auto. exfalso. apply T.
    pose proof (chords_length c l) as K. destruct (chords O c l); [reflexivity|]. cbn in K. lia. }
  split; auto. unfold axis_parameters. cbv zeta. destruct (Nat.eqb_spec n 0); [lia|]. f_equal.
  assert (forall i, i + 1 < n ->
    match map (line_parameters O c) lines, all_some (map (fun l => nth i l None) (map (line_parameters O c) lines)) with
    | [], _ | _, None => None
    | _, Some xs => Some (qsum xs / inj (length xs))%Qc
    end = Some (parameter c lines (S i))) as E.
  { intros i Hi. rewrite map_map. rewrite (all_some_map _ (fun l => fraction c l (S i))).
    - unfold parameter. rewrite map_length. destruct lines; [contradiction|]. reflexivity.
    - intros l Hl. destruct (H l Hl). apply line_parameters_nth; auto. lia. }
  assert (forall l, In l lines -> fraction c l 0 = 0%Qc) as F0.
  { intros l _. unfold fraction. cbn. unfold Qcdiv. ring. }
  assert (forall l, In l lines -> fraction c l (n - 1) = 1%Qc) as F1.
  { intros l Hl. destruct (H l Hl) as [L T]. unfold fraction. rewrite firstn_all2 by (rewrite chords_length; lia).
    unfold Qcdiv. now apply Qcmult_inv_r. }
  assert (inj (length lines) <> 0%Qc) as Nz.
  { apply inj_neq0. destruct lines; [contradiction|cbn; lia]. }
  apply nth_ext with (d := None) (d' := None).
  - rewrite !set_nth_length, !map_length, !seq_length. cbn [length]. rewrite map_length, seq_length. lia.
  - rewrite !set_nth_length. cbn [length]. rewrite map_length, seq_length. intros i Hi.
    rewrite set_nth_nth by (rewrite set_nth_length; cbn [length]; rewrite map_length, seq_length; lia).
    rewrite set_nth_nth by (cbn [length]; lia).
    transitivity (Some (parameter c lines i)).
    + destruct (Nat.eqb_spec i (n - 1)) as [->|I1].
      * f_equal. unfold parameter. rewrite (qsum_ext _ (fun _ => 1%Qc)) by (intros; now apply F1).
        rewrite qsum_const. now field.
      * destruct (Nat.eqb_spec i 0) as [->|I0].
        -- f_equal. unfold parameter. rewrite qsum_zero by (intros; now apply F0). now field.
        -- destruct i as [|i]; [lia|]. cbn [nth]. rewrite <- (E i) by lia.
           rewrite at_map_seq by lia. cbn [Nat.add]. destruct lines; [contradiction|]. reflexivity.
    + rewrite map_map. rewrite nth_indep with (d' := (fun x => Some (parameter c lines x)) 0) by (rewrite map_length, seq_length; lia).
      rewrite (map_nth (fun x => Some (parameter c lines x))). rewrite seq_nth by lia. reflexivity.
Qed.

Lemma qsum_firstn_le l i j : Forall (fun x => (0 <= x)%Qc) l -> i <= j -> (qsum (firstn i l) <= qsum (firstn j l))%Qc.
Proof.
  clear M. revert i j. induction l as [|x l IH]; intros i j F H; [rewrite !firstn_nil; apply Qcle_refl|].
  inversion F; subst. destruct i as [|i].
  - destruct j; [apply Qcle_refl|]. cbn [firstn]. change (qsum (x :: firstn j l)) with (x + qsum (firstn j l))%Qc.
    pose proof (IH 0 j H3 ltac:(lia)) as Q. change (qsum (firstn 0 l)) with 0%Qc in Q. change (qsum []) with 0%Qc. clear IH. qlra.
  - destruct j as [|j]; [lia|]. cbn [firstn]. change (qsum (x :: firstn j l)) with (x + qsum (firstn j l))%Qc.
    change (qsum (x :: firstn i l)) with (x + qsum (firstn i l))%Qc. pose proof (IH i j H3 ltac:(lia)). qlra.
Qed.
Lemma qsum_firstn_lt l i j : Forall (fun x => (0 < x)%Qc) l -> i < j -> j <= length l -> (qsum (firstn i l) < qsum (firstn j l))%Qc.
Proof.
  clear M. revert i j. induction l as [|x l IH]; intros i j F H Hj; [cbn in Hj; lia|].
  inversion F; subst. destruct j as [|j]; [lia|]. cbn [firstn length] in *. change (qsum (x :: firstn j l)) with (x + qsum (firstn j l))%Qc.
  assert (Forall (fun x => (0 <= x)%Qc) l) as F' by (eapply Forall_impl; [|exact H3]; intros; now apply Qclt_le_weak).
  destruct i as [|i].
  - pose proof (qsum_firstn_le l 0 j F' ltac:(lia)) as Q. change (qsum (firstn 0 l)) with 0%Qc in Q. change (qsum (firstn 0 (x :: l))) with 0%Qc. clear IH. qlra.
  - cbn [firstn]. change (qsum (x :: firstn i l)) with (x + qsum (firstn i l))%Qc. pose proof (IH i j H3 ltac:(lia) ltac:(lia)). clear IH. qlra.
Qed.
Lemma qsum_pos_in l x : Forall (fun x => (0 <= x)%Qc) l -> In x l -> (0 < x)%Qc -> (0 < qsum l)%Qc.
Proof.
  clear M. intros F H P. rewrite Forall_forall in F. rewrite <- (map_id l).
  apply qsum_positive with x; auto.
Qed.

Lemma chords_nonneg c line : Forall (fun x => (0 <= x)%Qc) (chords O c line).
Proof.
  apply Forall_forall. intros x H. apply In_nth with (d := 0%Qc) in H as (i & Hi & <-). rewrite chords_length in Hi.
  rewrite chords_nth by lia. apply chord_nonneg.
Qed.
Lemma spread_total c dim line : Forall (fun p => length p = dim) line -> spread line -> (0 < qsum (chords O c line))%Qc.
Proof.
  intros F (i & Hi & Hn). apply qsum_pos_in with (nth i (chords O c line) 0%Qc).
  - apply chords_nonneg.
  - apply nth_In. rewrite chords_length. lia.
  - rewrite chords_nth by auto. rewrite Forall_forall in F. apply chord_pos; auto.
    rewrite !F; auto; apply nth_In; lia.
Qed.
Lemma moving_chords c dim line : Forall (fun p => length p = dim) line -> moving line -> Forall (fun x => (0 < x)%Qc) (chords O c line).
Proof.
  intros F Hm. apply Forall_forall. intros x H. apply In_nth with (d := 0%Qc) in H as (i & Hi & <-). rewrite chords_length in Hi.
  rewrite chords_nth by lia. rewrite Forall_forall in F. apply chord_pos; [|apply Hm; lia]. rewrite !F; auto; apply nth_In; lia.
Qed.

Lemma parameters_ok c n dim lines : lines <> [] ->
  (forall l, In l lines -> length l = n /\ Forall (fun p => length p = dim) l /\ spread l) ->
  exists u, axis_parameters O c n lines = Some (map Some u) /\ length u = n /\ 2 <= n /\ unit_parameters u /\
    ((forall l, In l lines -> moving l) -> increasing u).
Proof.
  intros Hne H. destruct (axis_parameters_eq c n lines Hne) as [E Hn].
  { intros l Hl. destruct (H l Hl) as (L & F & S'). split; auto. pose proof (spread_total c dim l F S') as P.
    intro Z. rewrite Z in P. discriminate P. }
  assert (0 < inj (length lines))%Qc as P. { apply inj_pos. destruct lines; [contradiction|cbn; lia]. }
  assert (forall i, i < n -> nth i (map (parameter c lines) (seq 0 n)) 0%Qc = parameter c lines i) as N.
  { intros i Hi. rewrite nth_indep with (d' := parameter c lines 0) by (rewrite map_length, seq_length; lia).
    rewrite (map_nth (parameter c lines)). now rewrite seq_nth. }
  assert (forall i j, i <= j -> j < n -> (parameter c lines i <= parameter c lines j)%Qc) as Mo.
  { intros i j Hij Hj. unfold parameter, Qcdiv. apply Qcmult_le_compat_r; [|apply Qclt_le_weak, Qc_inv_pos; auto].
    apply qsum_le. intros l Hl. destruct (H l Hl) as (L & F & S'). pose proof (spread_total c dim l F S') as T.
    unfold fraction, Qcdiv. apply Qcmult_le_compat_r; [|apply Qclt_le_weak, Qc_inv_pos; auto].
    apply qsum_firstn_le; auto. apply chords_nonneg. }
  exists (map (parameter c lines) (seq 0 n)). split; auto. split; [now rewrite map_length, seq_length|]. split; auto.
  split; [refine (conj _ (conj _ _))|].
  - intros i j Hij Hj. rewrite map_length, seq_length in Hj. rewrite !N by lia. auto.
  - rewrite N by lia. unfold parameter. rewrite qsum_zero; [unfold Qcdiv; ring|].
    intros l _. unfold fraction. cbn. unfold Qcdiv. ring.
  - rewrite last_nth, map_length, seq_length, N by lia. unfold parameter.
    rewrite (qsum_ext _ (fun _ => 1%Qc)).
    + rewrite qsum_const. unfold Qcdiv. rewrite Qcmult_1_r. apply Qcmult_inv_r. intro Z. rewrite Z in P. discriminate P.
    + intros l Hl. destruct (H l Hl) as (L & F & S'). pose proof (spread_total c dim l F S') as T.
      unfold fraction. rewrite firstn_all2 by (rewrite chords_length; lia). unfold Qcdiv. apply Qcmult_inv_r.
      intro Z. rewrite Z in T. discriminate T.
  - intros Hm i j Hij Hj. rewrite map_length, seq_length in Hj. rewrite !N by lia.
    unfold parameter, Qcdiv. apply Qcmult_lt_compat_r; [now apply Qc_inv_pos|].
    destruct lines as [|l0 lines0] eqn:EL; [contradiction|]. rewrite <- EL in *. apply qsum_lt with l0.
    + rewrite EL. now left.
    + intros l Hl. destruct (H l Hl) as (L & F & S'). pose proof (spread_total c dim l F S') as T.
      unfold fraction, Qcdiv. apply Qcmult_le_compat_r; [|apply Qclt_le_weak, Qc_inv_pos; auto].
      apply qsum_firstn_le; [apply chords_nonneg|lia].
    + assert (In l0 lines) as Hl by (rewrite EL; now left). destruct (H l0 Hl) as (L & F & S'). pose proof (spread_total c dim l0 F S') as T.
      unfold fraction, Qcdiv. apply Qcmult_lt_compat_r; [now apply Qc_inv_pos|].
      apply qsum_firstn_lt; [apply moving_chords with dim; auto|auto|rewrite chords_length; lia].
Qed.
End Parameters.
