(** Proofs about revolved splines, lines and boxes. *)
From Coq Require Import List Arith ZArith Lia Bool QArith Qcanon Qround Sorted.
From Verif Require Import Base BaseRadix BaseQc S_Grid P_Grid S_Spline P_Spline S_Value P_Value M_Core S_Core P_Core
  M_Files S_Files P_Files M_Bezier P_Bezier M_Elevate P_Elevate S_Knots S_Pieces P_Pieces M_Create S_Create P_Create.
Import ListNotations.
Local Open Scope list_scope.
Local Open Scope nat_scope.

(** * Axes of n pieces of degree p that join with multiplicity p *)
Definition joined (p n : nat) : list nat := (p + 1) :: repeat p (n - 1) ++ [p + 1].
Lemma joined_length p n : 1 <= n -> length (joined p n) = n + 1.
Proof. intros. unfold joined. cbn. rewrite app_length, repeat_length. cbn. lia. Qed.
Lemma joined_nth p n c : 0 < c -> c < n -> nth c (joined p n) 0 = p.
Proof.
  intros H1 H2. unfold joined. destruct c as [|c]; [lia|]. cbn [nth].
  rewrite app_nth1 by (rewrite repeat_length; lia). rewrite (nth_indep _ 0 p) by (rewrite repeat_length; lia). apply nth_repeat.
Qed.
Lemma joined_sum p n : 1 <= n -> list_sum (joined p n) = p * n + p + 2.
Proof.
  intros H. unfold joined. rewrite list_sum_cons, list_sum_app.
  assert (forall k, list_sum (repeat p k) = p * k) as -> by (induction k; cbn [repeat]; rewrite ?list_sum_cons; cbn; lia).
  cbn. replace (p * n) with (p * (n - 1) + p) by nia. lia.
Qed.
Lemma joined_first p n c : c < n -> first_id (joined p n) c = p * c.
Proof.
  induction c as [|c IH]; intros H; [unfold first_id; cbn; lia|].
  rewrite first_id_S by (rewrite joined_length; lia). rewrite IH, joined_nth by lia. lia.
Qed.
Lemma joined_bezier p n us kv : 1 <= p -> 1 <= n -> length us = n + 1 -> StronglySorted Qclt us ->
  kv = expand_knots us (joined p n) -> piecewise_bezier p kv us (joined p n).
Proof.
  intros Hp Hn L Ss E. refine (conj E (conj Ss _)). rewrite joined_length by auto. split; [exact L|]. split; [lia|].
  split; [reflexivity|].
  assert (nth n (joined p n) 0 = p + 1) as Last.
  { unfold joined. destruct n as [|n]; [lia|]. cbn [nth]. rewrite app_nth2 by (rewrite repeat_length; lia). rewrite repeat_length.
    replace (n - (S n - 1)) with 0 by lia. reflexivity. }
  split; [now replace (n + 1 - 1) with n by lia|].
  intros i Hi. destruct (Nat.eq_dec i 0) as [->|]; [cbn; lia|]. destruct (Nat.eq_dec i n) as [->|]; [lia|].
  rewrite joined_nth by lia. lia.
Qed.
Lemma joined_fun p n us kv c t u j : 1 <= p -> 1 <= n -> length us = n + 1 -> StronglySorted Qclt us ->
  kv = expand_knots us (joined p n) -> c < n -> (0 <= t)%Qc -> (t <= 1)%Qc ->
  u = (nth c us 0 + t * (nth (S c) us 0 - nth c us 0))%Qc -> j < p * n + 1 ->
  ax_fun (KnotAxis p kv) u j =
  if (p * c <=? j) && (j <=? p * c + p) then bernstein p (j - p * c) t else 0%Qc.
Proof.
  intros Hp Hn L Ss E Hc T0 T1 Eu Hj. pose proof (joined_bezier p n us kv Hp Hn L Ss E) as B.
  rewrite (local_fun p kv us (joined p n) B c t u j).
  - now rewrite joined_first.
  - refine (conj _ (conj T0 (conj T1 (conj _ Eu)))); [lia|]. intros _. rewrite L.
    destruct (Nat.eq_dec (S c) n) as [Z|]; [left; lia|right; apply joined_nth; lia].
  - rewrite joined_sum by auto. lia.
Qed.
Lemma joined_n p n us kv : 1 <= p -> 1 <= n -> length us = n + 1 -> StronglySorted Qclt us ->
  kv = expand_knots us (joined p n) -> ax_n (KnotAxis p kv) = p * n + 1 /\ length kv = p * n + p + 2.
Proof.
  intros Hp Hn L Ss E. split.
  - rewrite (axis_points p kv us (joined p n)) by now apply joined_bezier. rewrite joined_sum by auto. lia.
  - rewrite E, expand_length by (rewrite joined_length by auto; exact L). now apply joined_sum.
Qed.
Lemma joined_fit p n us kv : 1 <= p -> 1 <= n -> length us = n + 1 -> StronglySorted Qclt us ->
  kv = expand_knots us (joined p n) -> knots_fit (Z.of_nat p) kv.
Proof.
  intros Hp Hn L Ss E. pose proof (joined_bezier p n us kv Hp Hn L Ss E) as B. apply axis_wf in B as (B1 & B2 & _).
  destruct (joined_n p n us kv Hp Hn L Ss E) as [_ K].
  split; [lia|]. split; [exact B2|]. nia.
Qed.

Lemma expand_app us1 us2 m1 m2 : length us1 = length m1 ->
  expand_knots (us1 ++ us2) (m1 ++ m2) = expand_knots us1 m1 ++ expand_knots us2 m2.
Proof.
  revert m1; induction us1 as [|x us1 IH]; intros [|k m1] L; try discriminate; [reflexivity|].
  injection L as L. cbn [app]. rewrite !expand_cons, IH by auto. apply app_assoc.
Qed.
Lemma expand_repeat p us : expand_knots us (repeat p (length us)) = flat_map (fun x => repeat x p) us.
Proof. induction us as [|x us IH]; [reflexivity|]. cbn [length repeat flat_map]. now rewrite expand_cons, IH. Qed.
Lemma expand_joined p n x us y : length us = n - 1 -> 1 <= n ->
  expand_knots (x :: us ++ [y]) (joined p n) = repeat x (p + 1) ++ flat_map (fun x => repeat x p) us ++ repeat y (p + 1).
Proof.
  intros L H. unfold joined. rewrite expand_cons, expand_app by now rewrite repeat_length.
  rewrite <- L, expand_repeat. cbn [expand_knots combine map concat fst snd]. now rewrite app_nil_r.
Qed.

Lemma flat_map_length_const {A B} (g : A -> list B) k l : (forall x, length (g x) = k) -> length (flat_map g l) = length l * k.
Proof. intros H. induction l; cbn; [easy|]. rewrite app_length, H, IHl. lia. Qed.

(** * The knots of revolutions *)
Lemma nth_seq_map {A} (f : nat -> A) n i d : i < n -> nth i (map f (seq 0 n)) d = f i.
Proof.
  intros H. rewrite (nth_indep _ _ (f 0)) by now rewrite map_length, seq_length. now rewrite map_nth, seq_nth.
Qed.
Lemma map_seq_ends {A} (f : nat -> A) n : 1 <= n -> map f (seq 0 (n + 1)) = f 0 :: map f (seq 1 (n - 1)) ++ [f n].
Proof.
  intros H. replace (n + 1) with (S (n - 1 + 1)) by lia. cbn [seq map]. f_equal. rewrite seq_app, map_app. cbn.
  do 3 f_equal. lia.
Qed.
Lemma revolved_knots_eq n : 1 <= n -> revolved_knots n = expand_knots (map inj (seq 0 (n + 1))) (joined 2 n).
Proof.
  intros H. rewrite map_seq_ends by auto. rewrite expand_joined by (rewrite ?map_length, ?seq_length; auto).
  unfold revolved_knots. f_equal. rewrite <- seq_shift, map_map. f_equal.
  rewrite flat_map_concat_map, (flat_map_concat_map _ (map _ _)), map_map. f_equal. apply map_ext. intros i.
  rewrite Nat.add_1_r. reflexivity.
Qed.
Lemma sorted_map_seq f a n : (forall i, a <= i -> i + 1 < a + n -> (f i < f (S i))%Qc) -> StronglySorted Qclt (map f (seq a n)).
Proof.
  intros H. apply Sorted_StronglySorted; [intros x y z; apply Qclt_trans|].
  revert a H; induction n as [|n IH]; intros a H; cbn [seq map]; constructor.
  - apply IH. intros i H1 H2. apply H; lia.
  - destruct n; cbn; constructor. apply H; lia.
Qed.
Lemma revolved_sorted n : StronglySorted Qclt (map inj (seq 0 (n + 1))).
Proof. apply sorted_map_seq. intros. apply inj_lt. lia. Qed.

Section Turn.
Variables (s : spline) (n : nat).
Hypothesis (Hn : 1 <= n) (Hb : has_kvs s = false -> n = 1).
Definition turn_axis : paxis := new_axis s 2 (revolved_knots n).
Lemma turn_n : ax_n turn_axis = 2 * n + 1.
Proof.
  unfold turn_axis, new_axis. destruct (has_kvs s) eqn:E.
  - destruct (joined_n 2 n (map inj (seq 0 (n + 1))) (revolved_knots n) ltac:(lia) Hn ltac:(now rewrite map_length, seq_length) (revolved_sorted n)
      (revolved_knots_eq n Hn)) as [H _]. exact H.
  - rewrite (Hb eq_refl). reflexivity.
Qed.
Lemma turn_fun c t j : c < n -> (0 <= t)%Qc -> (t <= 1)%Qc -> j < 2 * n + 1 ->
  ax_fun turn_axis (inj c + t)%Qc j = if (2 * c <=? j) && (j <=? 2 * c + 2) then bernstein 2 (j - 2 * c) t else 0%Qc.
Proof.
  intros Hc T0 T1 Hj. unfold turn_axis, new_axis. destruct (has_kvs s) eqn:E.
  - apply (joined_fun 2 n (map inj (seq 0 (n + 1)))); auto; try lia.
    + now rewrite map_length, seq_length.
    + apply revolved_sorted.
    + now apply revolved_knots_eq.
    + rewrite !(nth_seq_map _ (n + 1)) by lia. rewrite inj_S. ring.
  - assert (c = 0) as -> by (specialize (Hb eq_refl); lia). rewrite (Hb eq_refl) in Hj. cbn [ax_fun].
    replace (inj 0 + t)%Qc with t by (change (inj 0) with 0%Qc; ring). cbn [Nat.mul Nat.add Nat.leb andb].
    destruct (Nat.leb_spec j 2); [|lia]. now rewrite Nat.sub_0_r.
Qed.
Lemma turn_sum c t (g : nat -> Qc) : c < n -> (0 <= t)%Qc -> (t <= 1)%Qc ->
  qsum (map (fun j => ax_fun turn_axis (inj c + t)%Qc j * g j)%Qc (seq 0 (2 * n + 1))) =
  ((1 - t) * (1 - t) * g (2 * c)%nat + (1 + 1) * t * (1 - t) * g (2 * c + 1)%nat + t * t * g (2 * c + 2)%nat)%Qc.
Proof.
  intros Hc T0 T1.
  rewrite (qsum_ext _ (fun j => Qcmult (if (2 * c <=? j) && (j <=? 2 * c + 2) then bernstein 2 (j - 2 * c) t else 0%Qc) (g j))).
  2:{ intros j Hj. apply in_seq in Hj. rewrite turn_fun by (auto; lia). reflexivity. }
  rewrite (qsum_window (fun j => bernstein 2 j t) g (2 * c) 2 (2 * n + 1)) by lia.
  cbn [Nat.add seq map qsum]. rewrite Nat.add_0_r.
  repeat (rewrite ?bernstein_S0, ?bernstein_SS). rewrite ?bernstein_00, ?(bernstein_gt 0 1), ?(bernstein_gt 0 2) by lia.
  ring.
Qed.
End Turn.

(** * Rotations *)
Definition space (k : option (nat -> Qc)) : nat := match k with None => 2 | Some _ => 3 end.
Lemma turned_ext k a b x y d : (forall j, j < space k -> x j = y j) -> d < space k -> turned k a b x d = turned k a b y d.
Proof.
  intros H Hd. unfold turned, axial, quarter. destruct k as [k|]; cbn [space] in *.
  - rewrite !(H 0), !(H 1), !(H 2), !(H d) by lia. destruct d as [|[|[|d]]]; try lia; reflexivity.
  - rewrite !(H 0), !(H 1), !(H d) by lia. reflexivity.
Qed.
Lemma axial_turned k a b x d : unit_axis k -> axial k (turned k a b x) d = axial k x d.
Proof.
  intros U. destruct k as [k|]; [|reflexivity]. cbn [unit_axis] in U. cbn [axial]. f_equal.
  unfold turned. cbn [axial quarter].
  set (dt := (k 0%nat * x 0%nat + k 1%nat * x 1%nat + k 2%nat * x 2%nat)%Qc).
  transitivity (a * dt + (1 - a) * dt * (k 0%nat * k 0%nat + k 1%nat * k 1%nat + k 2%nat * k 2%nat))%Qc;
    [unfold dt; ring|rewrite U; ring].
Qed.
Lemma quarter_turned k a b x d : unit_axis k -> d < space k ->
  quarter k (turned k a b x) d = (a * quarter k x d - b * (x d - axial k x d))%Qc.
Proof.
  intros U H. destruct k as [k|]; cbn [unit_axis space] in *.
  - transitivity (a * quarter (Some k) x d - b * (x d * (k 0%nat * k 0%nat + k 1%nat * k 1%nat + k 2%nat * k 2%nat) - axial (Some k) x d))%Qc;
      [|rewrite U; ring].
    unfold turned, axial, quarter. destruct d as [|[|[|d]]]; try lia; ring.
  - unfold turned, axial, quarter. destruct d as [|[|d]]; try lia; ring.
Qed.
Lemma turned_turned k a b a' b' x d : unit_axis k -> d < space k ->
  turned k a b (turned k a' b' x) d = turned k (a * a' - b * b')%Qc (a * b' + b * a')%Qc x d.
Proof.
  intros U H. unfold turned at 1. rewrite axial_turned, quarter_turned by auto. unfold turned. ring.
Qed.

Lemma affine_const dim c : affine dim (fun _ => c).
Proof. exists c, (fun _ => 0%Qc). intros x. rewrite qsum_zero; [ring|]. intros; ring. Qed.
Lemma affine_add dim f g : affine dim f -> affine dim g -> affine dim (fun x => (f x + g x)%Qc).
Proof.
  intros (v & m & H) (v' & m' & H'). exists (v + v')%Qc, (fun k => (m k + m' k)%Qc). intros x. rewrite H, H'.
  rewrite (qsum_ext (fun k => (m k + m' k) * x k)%Qc (fun k => m k * x k + m' k * x k)%Qc) by (intros; ring).
  rewrite qsum_map_add. ring.
Qed.
Lemma affine_scale dim c f : affine dim f -> affine dim (fun x => (c * f x)%Qc).
Proof.
  intros (v & m & H). exists (c * v)%Qc, (fun k => (c * m k)%Qc). intros x. rewrite H, Qcmult_plus_distr_r. f_equal.
  rewrite <- qsum_map_mul_l. apply qsum_ext. intros; ring.
Qed.
Lemma affine_axial dim k f d : (forall j, affine dim (fun x => f x j)) -> affine dim (fun x => axial k (f x) d).
Proof.
  intros H. destruct k as [k|]; cbn [axial]; [|apply affine_const].
  apply (affine_ext _ (fun x => k 0%nat * k d * f x 0%nat + k 1%nat * k d * f x 1%nat + k 2%nat * k d * f x 2%nat)%Qc); [intros; ring|].
  repeat apply affine_add; apply affine_scale, H.
Qed.
Lemma affine_quarter dim k f d : (forall j, affine dim (fun x => f x j)) -> affine dim (fun x => quarter k (f x) d).
Proof.
  intros H.
  assert (forall a b i j, affine dim (fun x => a * f x i - b * f x j)%Qc) as X.
  { intros a b i j. apply (affine_ext _ (fun x => a * f x i + (- b) * f x j)%Qc); [intros; ring|].
    apply affine_add; apply affine_scale, H. }
  destruct k as [k|]; destruct d as [|[|d]]; cbn [quarter]; try apply X; try apply H.
  apply (affine_ext _ (fun x => (- (1)) * f x 1%nat)%Qc); [intros; ring|]. apply affine_scale, H.
Qed.
Lemma affine_turned dim k a b f d : (forall j, affine dim (fun x => f x j)) -> affine dim (fun x => turned k a b (f x) d).
Proof.
  intros H. unfold turned.
  apply (affine_ext _ (fun x => (1 - a) * axial k (f x) d + a * f x d + b * quarter k (f x) d)%Qc); [intros; ring|].
  repeat apply affine_add; apply affine_scale; auto using affine_axial, affine_quarter.
Qed.

(** * The control points *)
Definition turn_maps (rot push : list Qc -> list Qc) (m n : nat) : list (list Qc -> list Qc) :=
  flat_map (fun i => [fun p => push (Nat.iter (m + 2 * i + 1) rot p); Nat.iter (m + 2 * i + 2) rot]) (seq 0 n).
Lemma segments_maps rot push cps n m : segments rot push n (map (Nat.iter m rot) cps) =
  flat_map (fun A => map A cps) (turn_maps rot push m n).
Proof.
  revert m; induction n as [|n IH]; intros m; [reflexivity|].
  cbn [segments]. rewrite !map_map.
  assert (map (fun x => rot (rot (Nat.iter m rot x))) cps = map (Nat.iter (m + 2) rot) cps) as ->.
  { apply map_ext. intros x. replace (m + 2) with (S (S m)) by lia. reflexivity. }
  rewrite IH. unfold turn_maps at 2. cbn [seq flat_map app]. f_equal; [|f_equal].
  - apply map_ext. intros x. replace (m + 2 * 0 + 1) with (S m) by lia. reflexivity.
  - f_equal. f_equal. lia.
  - unfold turn_maps. rewrite <- seq_shift.
    assert (forall (g : nat -> list (list Qc -> list Qc)) l, flat_map g (map S l) = flat_map (fun i => g (S i)) l) as ->
      by (intros g l; induction l; cbn; congruence).
    f_equal. apply flat_map_ext. intros i. replace (m + 2 * S i + 1) with (m + 2 + 2 * i + 1) by lia.
    replace (m + 2 * S i + 2) with (m + 2 + 2 * i + 2) by lia. reflexivity.
Qed.
Lemma turn_maps_nth rot push n m j A : nth_error (turn_maps rot push m n) j = Some A ->
  j < 2 * n /\ forall p, A p = if Nat.even j then push (Nat.iter (m + j + 1) rot p) else Nat.iter (m + j + 1) rot p.
Proof.
  revert m j; induction n as [|n IH]; intros m j H; [destruct j; discriminate|].
  unfold turn_maps in H. rewrite seq_S, flat_map_app in H.
  destruct (Nat.lt_ge_cases j (2 * n)) as [L|L].
  - rewrite nth_error_app1 in H by
      (rewrite (flat_map_length_const _ 2); [rewrite seq_length; lia|reflexivity]).
    apply IH in H as [H1 H2]. split; [lia|exact H2].
  - rewrite nth_error_app2 in H by
      (rewrite (flat_map_length_const _ 2); [rewrite seq_length; lia|reflexivity]).
    rewrite (flat_map_length_const _ 2), seq_length in H by reflexivity. cbn [Nat.add flat_map app] in H.
    destruct (j - n * 2) as [|[|i]] eqn:Ej; cbn in H; [| |destruct i; discriminate]; injection H as <-; (split; [lia|]);
      intros p.
    + replace j with (2 * n) by lia. rewrite Nat.even_mul. reflexivity.
    + replace j with (S (2 * n)) by lia. rewrite Nat.even_succ, <- Nat.negb_even, Nat.even_mul. cbn [Nat.even orb negb].
      f_equal. lia.
Qed.
Lemma turn_maps_length rot push n m : length (turn_maps rot push m n) = 2 * n.
Proof. unfold turn_maps. rewrite (flat_map_length_const _ 2) by reflexivity. rewrite seq_length. lia. Qed.

(** * Number of segments *)
Lemma ceiling_le q : (q <= zq (Qceiling (this q)))%Qc.
Proof. unfold zq, Qcle. rewrite this_Q2Qc. apply Qle_ceiling. Qed.
Lemma spans_enough O angle asked : constants O ->
  let n := Z.to_nat (spans O angle asked) in
  spans O angle asked = Z.of_nat n /\ enough_spans O angle asked n.
Proof.
  intros [Hpi Htol]. cbn zeta.
  assert ((qabs angle + qabs (o_tolerance O)) / o_pi O <= zq (minimum_spans O angle))%Qc as M by apply ceiling_le.
  assert (0 < qabs (o_tolerance O))%Qc as T.
  { unfold qabs. destruct (Qclt_le_dec (o_tolerance O) 0); qlra. }
  assert (0 <= qabs angle)%Qc as A by apply qabs_nonneg.
  assert (qabs angle < zq (minimum_spans O angle) * o_pi O)%Qc as B.
  { apply Qcmult_le_compat_r with (z := o_pi O) in M; [|qlra].
    assert ((qabs angle + qabs (o_tolerance O)) / o_pi O * o_pi O = qabs angle + qabs (o_tolerance O))%Qc as E.
    { field. intros Z. rewrite Z in Hpi. discriminate. }
    rewrite E in M. qlra. }
  assert (0 < minimum_spans O angle)%Z as P.
  { destruct (Z.lt_ge_cases 0 (minimum_spans O angle)) as [|G]; auto. exfalso.
    assert (zq (minimum_spans O angle) <= 0)%Qc as L.
    { change 0%Qc with (zq 0). destruct (Z.eq_dec (minimum_spans O angle) 0) as [-> |]; [apply Qcle_refl|].
      apply Qclt_le_weak. apply zq_lt. lia. }
    apply Qcmult_le_compat_r with (z := o_pi O) in L; [|qlra]. rewrite Qcmult_0_l in L. qlra. }
  assert (minimum_spans O angle <= spans O angle asked)%Z as G.
  { unfold spans. destruct asked as [z|]; [|lia]. destruct (Z.ltb_spec z (minimum_spans O angle)); lia. }
  split; [lia|]. refine (conj _ (conj _ _)); [lia| |].
  - eapply Qclt_le_trans; [exact B|]. apply Qcmult_le_compat_r; [|qlra].
    change (inj (Z.to_nat (spans O angle asked))) with (zq (Z.of_nat (Z.to_nat (spans O angle asked)))). rewrite Z2Nat.id by lia.
    destruct (Z.eq_dec (minimum_spans O angle) (spans O angle asked)) as [-> |]; [apply Qcle_refl|].
    apply Qclt_le_weak, zq_lt. lia.
  - destruct asked as [z|]; [|easy]. unfold spans in *. destruct (Z.ltb_spec z (minimum_spans O angle)); lia.
Qed.

(** * Revolution *)
Definition pre (dim' : nat) (center : option (list Qc)) (p : list Qc) : list Qc :=
  match center with Some c => row_sub (zero_padded dim' p) c | None => zero_padded dim' p end.
Definition post (center : option (list Qc)) (p : list Qc) : list Qc :=
  match center with Some c => row_add p c | None => p end.
Definition turn_list (O : oracles) (dim' : nat) (k center : option (list Qc)) (a : Qc) (n : nat) : list (list Qc -> list Qc) :=
  map (fun A p => post center (A (pre dim' center p)))
    ((fun p => p) :: turn_maps (rotate_row (o_rotation O k a))
                       (push_row k (1 / o_sin O (o_pi O / inj 2 - a))%Qc) 0 n).
Definition turn_weights (w : Qc) (n : nat) : list Qc := 1%Qc :: concat (repeat [w; 1%Qc] n).
Definition turn_inputs (O : oracles) (s : spline) (dim' : nat) (k center : option (list Qc)) (a : Qc) (n : nat) : inputs :=
  Inputs (Some (core_degrees s ++ [2%Z]))
         (if has_kvs s then Some (core_kvs s ++ [revolved_knots n]) else None)
         (Some (flat_map (fun A => map A (sp_cps s)) (turn_list O dim' k center a n)))
         (option_map (fun ws => flat_map (fun o => map (Qcmult o) ws)
            (turn_weights (o_sin O (o_pi O / inj 2 - a)%Qc) n)) (sp_weights s)).

(** The conditions under which revolved does not raise. *)
Definition revolvable (O : oracles) (s : spline) (dim : nat) (axis center : option (list Qc)) (n : nat) : Prop :=
  let dim' := revolved_dim dim axis in
  dim <= dim' /\ (dim' = 2 \/ dim' = 3) /\
  match axis with Some v => (o_tolerance O < qabs (o_norm O v))%Qc | None => dim = 2 end /\
  match center with Some c => length c = dim' | None => True end /\
  (has_kvs s = false -> n = 1).

Lemma padded_id dim' (l : list (list Qc)) : Forall (fun p => length p = dim') l -> map (zero_padded dim') l = l.
Proof.
  intros F. rewrite <- (map_id l) at 2. apply map_ext_in. intros p Hp. rewrite Forall_forall in F.
  unfold zero_padded. rewrite (F p Hp), Nat.sub_diag. apply app_nil_r.
Qed.
Lemma radians_eq O angle degree : revolve_angle O angle degree = radians O angle degree.
Proof.
  unfold revolve_angle, radians. destruct angle as [a|].
  - destruct degree; [|reflexivity]. field. discriminate.
  - destruct degree; [|ring]. assert (inj 360 = inj 2 * inj 180)%Qc as -> by (now rewrite <- inj_mul). field. discriminate.
Qed.
Lemma direction_eq O v : length v = 3 -> row_scale (1 / o_norm O v)%Qc v = map (fun x => (x / o_norm O v)%Qc) v.
Proof. intros _. apply map_ext. intros x. unfold Qcdiv. ring. Qed.

Lemma turn_weights_eq w n ws : ws ++ concat (repeat (row_scale w ws ++ ws) n) =
  flat_map (fun o => map (Qcmult o) ws) (turn_weights w n).
Proof.
  assert (map (Qcmult 1%Qc) ws = ws) as E by (rewrite <- (map_id ws) at 2; apply map_ext; intros; ring).
  unfold turn_weights. cbn [flat_map]. rewrite E. f_equal.
  induction n as [|n IH]; [reflexivity|]. cbn [repeat concat app flat_map]. rewrite <- app_assoc, IH, E. reflexivity.
Qed.
Lemma turn_points_eq rot push center dim' cps n :
  match center with
  | Some c => map (fun p => row_add p c)
      (match center with Some c => map (fun p => row_sub p c) (map (zero_padded dim') cps) | None => map (zero_padded dim') cps end ++
       segments rot push n
         (match center with Some c => map (fun p => row_sub p c) (map (zero_padded dim') cps) | None => map (zero_padded dim') cps end))
  | None =>
      match center with Some c => map (fun p => row_sub p c) (map (zero_padded dim') cps) | None => map (zero_padded dim') cps end ++
      segments rot push n
         (match center with Some c => map (fun p => row_sub p c) (map (zero_padded dim') cps) | None => map (zero_padded dim') cps end)
  end =
  flat_map (fun A => map A cps) (map (fun A p => post center (A (pre dim' center p))) ((fun p => p) :: turn_maps rot push 0 n)).
Proof.
  assert (forall Q, Q ++ segments rot push n Q = flat_map (fun A => map A Q) ((fun p => p) :: turn_maps rot push 0 n)) as X.
  { intros Q. cbn [flat_map]. rewrite map_id. f_equal. rewrite <- segments_maps. cbn [Nat.iter]. f_equal. now rewrite <- (map_id Q) at 1. }
  rewrite X. generalize ((fun p : list Qc => p) :: turn_maps rot push 0 n). intros L.
  unfold pre, post. destruct center as [c|]; rewrite !flat_map_concat_map, ?concat_map, ?map_map; f_equal; apply map_ext; intros A;
    rewrite !map_map; reflexivity.
Qed.

Lemma revolved_spec O limit dim s axis center angle asked degree : constants O -> sound limit dim s ->
  let rad := radians O angle degree in
  exists n, spans O rad asked = Z.of_nat n /\ enough_spans O rad asked n /\
    revolved O s axis center angle asked degree =
    if (dim <=? revolved_dim dim axis) && ((revolved_dim dim axis =? 2) || (revolved_dim dim axis =? 3)) &&
       match axis with Some v => negb (qleb (qabs (o_norm O v)) (o_tolerance O)) | None => dim =? 2 end &&
       match center with Some c => length c =? revolved_dim dim axis | None => true end &&
       (has_kvs s || (n =? 1))
    then Some (turn_inputs O s (revolved_dim dim axis) (direction O axis) center (rad / (inj 2 * inj n))%Qc n)
    else None.
Proof.
  intros HO (St & _ & F & _) rad. pose proof (dims_eq _ _ _ St F) as D. pose proof (storable_points _ _ St) as Ne.
  destruct (spans_enough O rad asked HO) as [En En']. set (n := Z.to_nat (spans O rad asked)) in *.
  exists n. split; [exact En|]. split; [exact En'|].
  assert (forall k cps, (k <> None <-> revolved_dim dim axis = 3) -> k = direction O axis ->
    cps = map (zero_padded (revolved_dim dim axis)) (sp_cps s) -> dim <= revolved_dim dim axis ->
    revolve_points O s axis = Some (cps, k) ->
    revolved O s axis center angle asked degree =
    if ((revolved_dim dim axis =? 2) || (revolved_dim dim axis =? 3)) &&
       match center with Some c => length c =? revolved_dim dim axis | None => true end &&
       (has_kvs s || (n =? 1))
    then Some (turn_inputs O s (revolved_dim dim axis) (direction O axis) center (rad / (inj 2 * inj n))%Qc n)
    else None) as Main.
  { intros k cps _ Ek Ec Hd E. unfold revolved. rewrite E, radians_eq. fold rad. cbv zeta.
    assert (dim_of cps = revolved_dim dim axis) as Dc.
    { apply dim_of_rows; [|subst cps; destruct (sp_cps s); easy]. subst cps. apply Forall_forall. intros p Hp.
      apply in_map_iff in Hp as (q & <- & Hq). rewrite Forall_forall in F. apply zero_padded_length. rewrite (F q Hq). exact Hd. }
    rewrite Dc.
    assert (match center with Some c => negb (revolved_dim dim axis =? length c) | None => false end =
            negb (match center with Some c => length c =? revolved_dim dim axis | None => true end)) as ->.
    { destruct center; [|reflexivity]. now rewrite Nat.eqb_sym. }
    rewrite En. rewrite Nat2Z.id.
    assert ((1 <? Z.of_nat n)%Z = negb (n =? 1)) as ->.
    { destruct En' as (H1 & _). destruct (Nat.eqb_spec n 1), (Z.ltb_spec 1 (Z.of_nat n)); cbn; lia || reflexivity. }
    destruct (match center with Some c => length c =? revolved_dim dim axis | None => true end);
      [|cbn [negb]; rewrite andb_false_r; reflexivity].
    cbn [negb]. rewrite andb_true_r. destruct ((revolved_dim dim axis =? 2) || (revolved_dim dim axis =? 3)); [|reflexivity].
    cbn [negb andb]. destruct (has_kvs s) eqn:K, (n =? 1); cbn [negb andb orb]; try reflexivity; f_equal; unfold turn_inputs; rewrite K; f_equal.
    all: try (subst k cps; f_equal; apply turn_points_eq).
    all: destruct (sp_weights s) as [ws|]; [|reflexivity]; cbn [option_map]; rewrite turn_weights_eq; reflexivity. }
  unfold revolve_points in Main. rewrite D in Main. unfold revolved_dim, direction in *.
  destruct axis as [v|].
  - destruct (Nat.leb_spec dim (length v)) as [L|L].
    2:{ unfold revolved, revolve_points. rewrite D. destruct (Nat.ltb_spec (length v) dim); [reflexivity|lia]. }
    cbn [andb]. destruct (Nat.ltb_spec (length v) dim); [lia|].
    destruct (qleb (qabs (o_norm O v)) (o_tolerance O)) eqn:Q.
    { rewrite andb_false_r. unfold revolved, revolve_points. rewrite D.
      destruct (Nat.ltb_spec (length v) dim); [lia|]. now rewrite Q. }
    cbn [negb]. rewrite andb_true_r.
    destruct ((length v =? 2) || (length v =? 3)) eqn:B.
    + eapply Main; [| | |exact L|].
      4:{ reflexivity. }
      * destruct (Nat.eqb_spec (length v) 2), (Nat.eqb_spec (length v) 3); try discriminate; split; intros; (lia || congruence).
      * destruct (Nat.eqb_spec (length v) 2), (Nat.eqb_spec (length v) 3); try discriminate; try lia; try reflexivity.
        f_equal. now apply direction_eq.
      * destruct (Nat.ltb_spec dim (length v)); [reflexivity|]. assert (dim = length v) as <- by lia. symmetry. now apply padded_id.
    + cbn [andb]. unfold revolved, revolve_points. rewrite D. destruct (Nat.ltb_spec (length v) dim); [lia|]. rewrite Q.
      assert (forall l : list (list Qc), l <> [] -> (dim_of (if dim <? length v then map (zero_padded (length v)) (sp_cps s) else sp_cps s)) = length v) as X.
      { intros l _. destruct (Nat.ltb_spec dim (length v)).
        - apply dim_of_rows; [|destruct (sp_cps s); easy]. apply Forall_forall. intros p Hp. apply in_map_iff in Hp as (q & <- & Hq).
          rewrite Forall_forall in F. apply zero_padded_length. rewrite (F q Hq). exact L.
        - rewrite D. lia. }
      rewrite (X (sp_cps s) Ne), B. cbn [negb]. destruct center; [destruct (negb _)|]; reflexivity.
  - rewrite Nat.leb_refl. cbn [andb].
    destruct (Nat.eqb_spec dim 3) as [E3|N3].
    + unfold revolved, revolve_points. rewrite D, E3. reflexivity.
    + destruct (Nat.eqb_spec dim 2) as [E2|N2].
      * cbn [orb andb]. rewrite Main with (k := None) (cps := sp_cps s); auto.
        -- split; intros; (congruence || lia).
        -- symmetry. now apply padded_id.
      * cbn [orb andb]. unfold revolved, revolve_points. rewrite D. destruct (Nat.eqb_spec dim 3); [lia|]. rewrite D.
        destruct (Nat.eqb_spec dim 3); [lia|]. destruct (Nat.eqb_spec dim 2); [lia|]. cbn [orb negb]. destruct center; [destruct (negb _)|]; reflexivity.
Qed.

Section Values.
Variables (O : oracles) (limit dim : nat) (s : spline) (dim' : nat) (k center : option (list Qc)) (a : Qc) (n : nat).
Hypothesis (So : sound limit dim s) (Hd : dim <= dim') (Hk : dim' = space (as_vector k))
  (Hk3 : match k with Some l => length l = 3 | None => True end)
  (Hc : match center with Some c => length c = dim' | None => True end)
  (Hn : 1 <= n) (Hb : has_kvs s = false -> n = 1).
Let rot := rotate_row (o_rotation O k a).
Let weight := o_sin O (o_pi O / inj 2 - a)%Qc.
Let push := push_row k (1 / weight)%Qc.

Section Sizes.
Hypothesis Hsq : length (o_rotation O k a) = match k with None => 2 | Some _ => 3 end.
Lemma rot_length p : length (rot p) = dim'.
Proof. unfold rot, rotate_row. rewrite map_length, Hsq, Hk. now destruct k. Qed.
Lemma iter_length m p : length p = dim' -> length (Nat.iter m rot p) = dim'.
Proof. intros H. destruct m; [exact H|]. apply rot_length. Qed.
Lemma push_length p : length p = dim' -> length (push p) = dim'.
Proof.
  intros H. unfold push, push_row. destruct k as [l|].
  - cbn in Hk. rewrite row_add_length, !row_scale_length, row_sub_length, row_scale_length, Hk3. lia.
  - now rewrite row_scale_length.
Qed.
Lemma pre_length p : length p = dim -> length (pre dim' center p) = dim'.
Proof.
  intros H. unfold pre. destruct center as [c|]; [rewrite row_sub_length, Hc|]; rewrite zero_padded_length; lia.
Qed.
Lemma post_length p : length p = dim' -> length (post center p) = dim'.
Proof. intros H. unfold post. destruct center as [c|]; [rewrite row_add_length, Hc|]; lia. Qed.

Lemma turn_list_map j A : nth_error (turn_list O dim' k center a n) j = Some A ->
  j < 2 * n + 1 /\ forall p, A p = post center (if Nat.odd j then push (Nat.iter j rot (pre dim' center p))
                                               else Nat.iter j rot (pre dim' center p)).
Proof.
  unfold turn_list. rewrite nth_error_map. destruct j as [|j]; cbn [nth_error option_map].
  - intros [= <-]. split; [lia|]. intros p. reflexivity.
  - destruct (nth_error _ j) as [B|] eqn:E; [|discriminate]. intros [= <-]. apply turn_maps_nth in E as [H1 H2].
    split; [lia|]. intros p. rewrite H2. rewrite Nat.odd_succ. cbn [Nat.add]. rewrite Nat.add_1_r. reflexivity.
Qed.
Lemma turn_rows : Forall (fun p => length p = dim') (flat_map (fun A => map A (sp_cps s)) (turn_list O dim' k center a n)).
Proof.
  pose proof So as (_ & _ & F & _). rewrite Forall_forall in *. intros p Hp. apply in_flat_map in Hp as (A & HA & Hp).
  apply in_map_iff in Hp as (q & <- & Hq). apply In_nth_error in HA as (j & HA). apply turn_list_map in HA as [_ HA].
  rewrite HA. apply post_length. pose proof (iter_length j _ (pre_length q (F q Hq))). destruct (Nat.odd j); auto using push_length.
Qed.
Lemma turn_list_length : length (turn_list O dim' k center a n) = 2 * n + 1.
Proof. unfold turn_list. rewrite map_length. cbn [length]. rewrite turn_maps_length. lia. Qed.
Lemma turn_weights_length w : length (turn_weights w n) = 2 * n + 1.
Proof. unfold turn_weights. cbn [length]. clear. induction n; cbn [repeat concat]; [easy|]. rewrite app_length. cbn [length]. lia. Qed.
Lemma turn_blocks : blocks s 2 (revolved_knots n) = 2 * n + 1.
Proof. pose proof (turn_n s n Hn Hb) as H. unfold turn_axis, new_axis, blocks in *. now destruct (has_kvs s). Qed.
Lemma flat_map_length_in {A B} (g : A -> list B) m l : (forall x, length (g x) = m) -> length (flat_map g l) = m * length l.
Proof. intros H. rewrite (flat_map_length_const _ m) by auto. lia. Qed.
Lemma turn_count : length (flat_map (fun A => map A (sp_cps s)) (turn_list O dim' k center a n)) =
  length (sp_cps s) * blocks s 2 (revolved_knots n).
Proof.
  rewrite turn_blocks, (flat_map_length_in _ (length (sp_cps s))) by (intros; apply map_length). now rewrite turn_list_length.
Qed.
Lemma turn_fit : knots_fit 2%Z (revolved_knots n).
Proof.
  apply (joined_fit 2 n (map inj (seq 0 (n + 1)))); auto; try lia.
  - now rewrite map_length, seq_length.
  - apply revolved_sorted.
  - now apply revolved_knots_eq.
Qed.
Lemma turn_high : Forall (fun x => (qc (-1) 1 <= x)%Qc) (revolved_knots n).
Proof.
  assert (forall i, (qc (-1) 1 <= inj i)%Qc) as H.
  { intros i. apply Qcle_trans with 0%Qc; [unfold Qcle, Qle; vm_compute; discriminate|apply inj_nonneg]. }
  unfold revolved_knots. apply Forall_app. split; [repeat constructor; apply (H 0)|]. apply Forall_app. split.
  - apply Forall_forall. intros x Hx. apply in_flat_map in Hx as (i & _ & [<- |[<- |[]]]); apply H.
  - apply Forall_forall. intros x Hx. apply repeat_spec in Hx. subst x. apply H.
Qed.
Lemma turn_kind : option_map (fun ws => flat_map (fun o => map (Qcmult o) ws) (turn_weights weight n)) (sp_weights s) <> None <->
  sp_weights s <> None.
Proof. destruct (sp_weights s); cbn [option_map]; intuition discriminate. Qed.
Lemma turn_ws : match option_map (fun ws => flat_map (fun o => map (Qcmult o) ws) (turn_weights weight n)) (sp_weights s) with
  | Some w => length w = length (flat_map (fun A => map A (sp_cps s)) (turn_list O dim' k center a n))
  | None => True end.
Proof.
  destruct So as (_ & (_ & L & Lw) & _). rewrite turn_count, turn_blocks. destruct (sp_weights s) as [w|]; [|easy]. cbn [option_map].
  rewrite (flat_map_length_in _ (length w)) by (intros; apply map_length). rewrite turn_weights_length. lia.
Qed.
Lemma space_pos : 0 < dim'.
Proof. rewrite Hk. destruct k; cbn; lia. Qed.
Lemma turn_consistent : exists degs kvs cps ws,
  complete (name_of s) (turn_inputs O s dim' k center a n) degs kvs cps ws /\ consistent degs kvs cps ws.
Proof.
  pose proof So as (St & _). do 4 eexists. split.
  - apply (extend_complete s 2 (revolved_knots n)). exact turn_kind.
  - apply (extend_consistent limit s 2 (revolved_knots n)) with (dim' := dim');
      [exact St|exact turn_fit|exact space_pos|exact turn_rows|exact turn_count|exact turn_ws].
Qed.
Lemma turn_make : length (sp_axes s) < limit -> (has_kvs s = false -> dim' <= limit) ->
  make limit s (turn_inputs O s dim' k center a n) =
  Some (swept s (turn_axis s n) (turn_list O dim' k center a n) (turn_weights weight n)).
Proof.
  intros Hl Hl'. pose proof So as (St & _).
  apply (extend_make limit s 2 (revolved_knots n)) with (dim' := dim');
    [exact St|exact turn_fit|exact space_pos|exact turn_rows|exact turn_count|exact turn_kind|exact turn_ws|exact Hl|exact Hl'|exact turn_high].
Qed.
End Sizes.

Hypothesis (Ci : circular O a) (Ro : rotates O k a) (Un : unit_axis (as_vector k)).
Let kv := as_vector k.
Let C m := o_cos O (inj m * a)%Qc.
Let S' m := o_sin O (inj m * a)%Qc.

Lemma turned_0 x d : turned kv (C 0) (S' 0) x d = x d.
Proof.
  destruct Ci as (_ & _ & _ & C0 & S0 & _). unfold C, S'. replace (inj 0 * a)%Qc with 0%Qc by (change (inj 0) with 0%Qc; ring).
  rewrite C0, S0. unfold turned. ring.
Qed.
Lemma rot_nth p d : length p = dim' -> d < dim' ->
  nth d (rot p) 0%Qc = turned kv (o_cos O a) (o_sin O a) (fun j => nth j p 0%Qc) d.
Proof.
  intros Lp Ld. destruct Ro as [L R]. unfold rot, rotate_row.
  assert (dim' = match k with None => 2 | Some _ => 3 end) as E by (rewrite Hk; now destruct k).
  rewrite (nth_indep _ _ (dot [] p)) by (rewrite map_length, L; lia).
  rewrite (map_nth (fun r => dot r p)). apply R; lia.
Qed.
Lemma iter_nth m p d : length p = dim' -> d < dim' ->
  nth d (Nat.iter m rot p) 0%Qc = turned kv (C m) (S' m) (fun j => nth j p 0%Qc) d.
Proof.
  intros Lp. revert d; induction m as [|m IH]; intros d Ld.
  - now rewrite turned_0.
  - change (Nat.iter (S m) rot p) with (rot (Nat.iter m rot p)).
    rewrite rot_nth; [|apply iter_length; [exact (proj1 Ro)|exact Lp]|exact Ld].
    rewrite (turned_ext kv _ _ _ (turned kv (C m) (S' m) (fun j => nth j p 0%Qc)) d).
    + rewrite turned_turned; [|exact Un|unfold kv; rewrite <- Hk; exact Ld].
      destruct Ci as (_ & _ & _ & _ & _ & A). destruct (A m) as [A1 A2]. unfold C, S' in *. rewrite A1, A2. f_equal; ring.
    + intros j Hj. apply IH. unfold kv in Hj. now rewrite <- Hk in Hj.
    + unfold kv. now rewrite <- Hk.
Qed.
Lemma weight_eq : weight = o_cos O a /\ (0 < weight)%Qc.
Proof. destruct Ci as (_ & E & P & _). unfold weight. now rewrite E. Qed.
Lemma axial_ext q x y d : (forall j, j < space q -> x j = y j) -> axial q x d = axial q y d.
Proof. intros H. destruct q as [q|]; [|reflexivity]. cbn [axial space] in *. now rewrite !H by lia. Qed.
Lemma push_nth p x al be d : length p = dim' -> d < dim' ->
  (forall j, j < dim' -> nth j p 0%Qc = turned kv al be x j) ->
  nth d (push p) 0%Qc = turned kv (1 / weight * al)%Qc (1 / weight * be)%Qc x d.
Proof.
  intros Lp Ld H.
  assert (forall e, axial kv (fun j => nth j p 0%Qc) e = axial kv x e) as Hax.
  { intros e. rewrite (axial_ext kv _ (turned kv al be x)).
    - now apply axial_turned.
    - intros j Hj. apply H. rewrite Hk. exact Hj. }
  unfold push, push_row. unfold kv, as_vector in *. destruct k as [l|]; cbn [option_map] in *.
  - assert (forall e, nth e (row_scale (dot p l) l) 0%Qc = axial (Some (fun d => nth d l 0%Qc)) (fun j => nth j p 0%Qc) e) as E.
    { intros e. rewrite row_scale_nth. cbn [axial]. cbn in Hk.
      destruct p as [|p0 [|p1 [|p2 [|? ?]]]]; cbn in Lp; try lia.
      destruct l as [|l0 [|l1 [|l2 [|? ?]]]]; cbn in Hk3; try lia. cbn [dot combine map fst snd qsum nth]. unfold dot.
      cbn [combine map fst snd qsum]. f_equal. ring. }
    rewrite row_add_nth by (rewrite !row_scale_length, row_sub_length, row_scale_length, Hk3, Lp; cbn in Hk; lia).
    rewrite row_scale_nth, row_sub_nth by (rewrite row_scale_length, Hk3, Lp; exact Hk).
    rewrite E, Hax, H by exact Ld. unfold turned. ring.
  - rewrite row_scale_nth, H by exact Ld. unfold turned. cbn [axial]. ring.
Qed.

Definition blow (j : nat) : Qc := if Nat.odd j then (1 / weight)%Qc else 1%Qc.
Definition spot (d : nat) (x : nat -> Qc) (e : nat) : Qc := (embedded_in dim x e - origin center e)%Qc.
Lemma turn_nth j A p d : nth_error (turn_list O dim' k center a n) j = Some A -> In p (sp_cps s) -> d < dim' ->
  nth d (A p) 0%Qc =
  (origin center d + turned kv (blow j * C j) (blow j * S' j) (spot d (fun e => nth e p 0%Qc)) d)%Qc.
Proof.
  intros EA Hp Ld. apply (turn_list_map (proj1 Ro)) in EA as [_ EA]. rewrite EA. clear EA.
  pose proof So as (_ & _ & F & _). rewrite Forall_forall in F. specialize (F p Hp).
  pose proof (pre_length (proj1 Ro) p F) as Lpre.
  assert (forall e, e < dim' -> nth e (pre dim' center p) 0%Qc = spot d (fun e => nth e p 0%Qc) e) as Epre.
  { intros e He. unfold pre, spot, origin, embedded_in.
    assert ((if e <? dim then nth e p 0%Qc else 0%Qc) = nth e p 0%Qc) as ->.
    { destruct (Nat.ltb_spec e dim); [easy|]. rewrite nth_overflow; [easy|lia]. }
    destruct center as [c|].
    - rewrite row_sub_nth, nth_zero_padded; [reflexivity|]. rewrite zero_padded_length; lia.
    - rewrite nth_zero_padded. ring. }
  assert (forall q, length q = dim' -> nth d (post center q) 0%Qc = (origin center d + nth d q 0)%Qc) as Epost.
  { intros q Lq. unfold post, origin. destruct center as [c|]; [rewrite row_add_nth by lia|]; ring. }
  pose proof (iter_length (proj1 Ro) j _ Lpre) as Lit.
  assert (forall e, e < dim' -> nth e (Nat.iter j rot (pre dim' center p)) 0%Qc =
     turned kv (C j) (S' j) (spot d (fun e => nth e p 0%Qc)) e) as Eit.
  { intros e He. rewrite iter_nth by auto. apply turned_ext; [|unfold kv; now rewrite <- Hk].
    intros i Hi. apply Epre. rewrite Hk. exact Hi. }
  unfold blow. destruct (Nat.odd j).
  - rewrite Epost by (apply push_length; [exact (proj1 Ro)|exact Lit]). f_equal. now apply push_nth.
  - rewrite Epost by auto. f_equal. rewrite Eit by auto. unfold turned. ring.
Qed.
Lemma turn_affine j d : affine dim (fun x => (origin center d + turned kv (blow j * C j) (blow j * S' j) (spot d x) d)%Qc).
Proof.
  apply affine_add; [apply affine_const|]. apply (affine_turned dim kv _ _ (fun x => spot d x)).
  intros e. apply (affine_ext _ (fun x => embedded_in dim x e + (- origin center e))%Qc); [intros; unfold spot; ring|]. apply affine_coord.
Qed.

Lemma turn_weights_nth w j : j < 2 * n + 1 -> nth j (turn_weights w n) 0%Qc = if Nat.odd j then w else 1%Qc.
Proof.
  unfold turn_weights. clear. revert j. destruct n as [|m]; intros j Hj; [replace j with 0 by lia; reflexivity|]. revert j Hj.
  induction m as [|m IH]; intros [|[|[|j]]] Hj; try reflexivity; try lia.
  change (nth (S (S (S j))) (1%Qc :: concat (repeat [w; 1%Qc] (S (S m)))) 0%Qc) with (nth (S j) (1%Qc :: concat (repeat [w; 1%Qc] (S m))) 0%Qc).
  rewrite IH by lia. replace (Nat.odd (S (S (S j)))) with (Nat.odd (S j)); [reflexivity|].
  rewrite !Nat.odd_succ, Nat.even_succ, Nat.odd_succ. reflexivity.
Qed.

Definition turn_result : spline := swept s (turn_axis s n) (turn_list O dim' k center a n) (turn_weights weight n).
Lemma turn_value us c t d : sp_domain s us -> c < n -> (0 <= t)%Qc -> (t <= 1)%Qc -> d < dim' ->
  sp_value turn_result (us ++ [inj c + t]%Qc) d =
  let X := spot d (sp_value s us) in
  let q := axial kv X d in
  match sp_weights s with
  | None => origin center d + q +
      (((1 - t) * (1 - t) * C (2 * c)%nat + (1 + 1) * t * (1 - t) * (1 / weight) * C (2 * c + 1)%nat + t * t * C (2 * c + 2)%nat) * (X d - q) +
       ((1 - t) * (1 - t) * S' (2 * c)%nat + (1 + 1) * t * (1 - t) * (1 / weight) * S' (2 * c + 1)%nat + t * t * S' (2 * c + 2)%nat) * quarter kv X d)
  | Some _ => origin center d + q +
      (((1 - t) * (1 - t) * C (2 * c)%nat + (1 + 1) * t * (1 - t) * C (2 * c + 1)%nat + t * t * C (2 * c + 2)%nat) * (X d - q) +
       ((1 - t) * (1 - t) * S' (2 * c)%nat + (1 + 1) * t * (1 - t) * S' (2 * c + 1)%nat + t * t * S' (2 * c + 2)%nat) * quarter kv X d) /
      ((1 - t) * (1 - t) + (1 + 1) * t * (1 - t) * weight + t * t)
  end%Qc.
Proof.
  intros D Hcn T0 T1 Ld. pose proof So as (_ & W & _ & Pos). unfold turn_result.
  rewrite (swept_value s _ _ _ us _ d dim (fun j x => (origin center d + turned kv (blow j * C j) (blow j * S' j) (spot d x) d)%Qc)); auto.
  - rewrite turn_n by auto. cbn zeta. set (X := spot d (sp_value s us)).
    assert (forall i, Nat.odd (2 * c + i) = Nat.odd i) as Odd.
    { intros i. rewrite Nat.odd_add, Nat.odd_mul. cbn [Nat.odd Nat.even negb andb]. now destruct (Nat.odd i). }
    assert (Nat.odd (2 * c) = false) as Odd0 by (rewrite <- (Nat.add_0_r (2 * c)), Odd; reflexivity).
    destruct weight_eq as [_ Wp].
    assert (weight <> 0%Qc) as Wn by (intros E; rewrite E in Wp; discriminate).
    destruct (sp_weights s).
    + rewrite !(qsum_ext (fun j => ax_fun (turn_axis s n) (inj c + t)%Qc j * nth j (turn_weights weight n) 0 *
         (origin center d + turned kv (blow j * C j) (blow j * S' j) X d))%Qc
        (fun j => ax_fun (turn_axis s n) (inj c + t)%Qc j * (nth j (turn_weights weight n) 0 *
         (origin center d + turned kv (blow j * C j) (blow j * S' j) X d)))%Qc) by (intros; ring).
      rewrite !turn_sum by auto. rewrite !turn_weights_nth by lia. unfold blow. rewrite !Odd, Odd0.
      replace (Nat.odd 1) with true by reflexivity. replace (Nat.odd 2) with false by reflexivity.
      assert ((1 - t) * (1 - t) * 1 + (1 + 1) * t * (1 - t) * weight + t * t * 1 <> 0)%Qc as Dn.
      { assert (0 < (1 - t) * (1 - t) * 1 + (1 + 1) * t * (1 - t) * weight + t * t * 1)%Qc as P.
        { assert (0 <= (1 + 1) * t * (1 - t) * weight)%Qc.
          { apply Qc_mul_nonneg; [|qlra]. apply Qc_mul_nonneg; [|qlra]. qlra. }
          destruct (Qc_eq_dec t 0) as [-> |Nt]; [qlra|].
          assert (0 < t * t)%Qc by (apply Qc_mul_pos; apply Qcle_lt_or_eq in T0 as [|]; congruence).
          assert (0 <= (1 - t) * (1 - t))%Qc by (apply Qc_mul_nonneg; qlra). qlra. }
        intros E. rewrite E in P. discriminate. }
      unfold turned.
      assert ((1 - t) * (1 - t) * 1 + (1 + 1) * t * (1 - t) * weight + t * t * 1 =
              (1 - t) * (1 - t) + (1 + 1) * t * (1 - t) * weight + t * t)%Qc as ED by ring.
      rewrite ED in *. set (Den := ((1 - t) * (1 - t) + (1 + 1) * t * (1 - t) * weight + t * t)%Qc) in *.
      match goal with |- (_ = ?o + ?q + ?m / _)%Qc => transitivity ((Den * (o + q) + m) / Den)%Qc; [|field; exact Dn] end.
      f_equal. unfold Den. field. exact Wn.
    + rewrite turn_sum by auto. unfold blow. rewrite !Odd, Odd0.
      replace (Nat.odd 1) with true by reflexivity. replace (Nat.odd 2) with false by reflexivity. unfold turned. ring.
  - rewrite turn_n by auto. apply turn_list_length. exact (proj1 Ro).
  - rewrite turn_n by auto. apply turn_weights_length.
  - intros j _. apply turn_affine.
  - intros j A p EA Hp. now apply turn_nth.
Qed.
End Values.

Lemma segment_of n t : 1 <= n -> (0 <= t)%Qc -> (t <= inj n)%Qc ->
  exists c r, c < n /\ (0 <= r)%Qc /\ (r <= 1)%Qc /\ t = (inj c + r)%Qc.
Proof.
  intros H T0. induction n as [|n IH]; [lia|]. intros T1. rewrite inj_S in T1.
  destruct n as [|n].
  - exists 0, t. change (inj 0) with 0%Qc in *. refine (conj _ (conj T0 (conj _ _))); [lia|qlra|ring].
  - destruct (Qclt_le_dec t (inj (S n))) as [L|L].
    + destruct IH as (c & r & Hc & R0 & R1 & E); [lia|qlra|]. exists c, r. repeat split; auto; lia.
    + exists (S n), (t - inj (S n))%Qc. refine (conj _ (conj _ (conj _ _))); [lia|qlra|qlra|ring].
Qed.

Lemma turn_circle O a c t : circular O a -> (0 <= t)%Qc -> (t <= 1)%Qc ->
  let C m := o_cos O (inj m * a)%Qc in
  let S' m := o_sin O (inj m * a)%Qc in
  let D := ((1 - t) * (1 - t) + (1 + 1) * t * (1 - t) * o_cos O a + t * t)%Qc in
  let al := (((1 - t) * (1 - t) * C (2 * c)%nat + (1 + 1) * t * (1 - t) * C (2 * c + 1)%nat + t * t * C (2 * c + 2)%nat) / D)%Qc in
  let be := (((1 - t) * (1 - t) * S' (2 * c)%nat + (1 + 1) * t * (1 - t) * S' (2 * c + 1)%nat + t * t * S' (2 * c + 2)%nat) / D)%Qc in
  D <> 0%Qc /\ (al * al + be * be)%Qc = 1%Qc.
Proof.
  intros (U & _ & P & C0 & S0 & A) T0 T1 C S' D al be.
  assert (0 < D)%Qc as Dp.
  { unfold D. assert (0 <= (1 + 1) * t * (1 - t) * o_cos O a)%Qc.
    { apply Qc_mul_nonneg; [|qlra]. apply Qc_mul_nonneg; [|qlra]. qlra. }
    destruct (Qc_eq_dec t 0) as [-> |Nt]; [qlra|].
    assert (0 < t * t)%Qc by (apply Qc_mul_pos; apply Qcle_lt_or_eq in T0 as [|]; congruence).
    assert (0 <= (1 - t) * (1 - t))%Qc by (apply Qc_mul_nonneg; qlra). qlra. }
  assert (D <> 0%Qc) as Dn by (intros E; rewrite E in Dp; discriminate).
  split; [exact Dn|].
  assert (forall m, C m * C m + S' m * S' m = 1)%Qc as Unit.
  { induction m as [|m IH].
    - unfold C, S'. replace (inj 0 * a)%Qc with 0%Qc by (change (inj 0) with 0%Qc; ring). rewrite C0, S0. ring.
    - destruct (A m) as [A1 A2]. unfold C, S' in *. rewrite A1, A2.
      match goal with |- ((?x * ?c - ?y * ?s) * _ + _ = 1)%Qc =>
        transitivity ((x * x + y * y) * (c * c + s * s))%Qc; [ring|] end. rewrite IH, U. ring. }
  assert (forall m, C (S m) = C m * o_cos O a - S' m * o_sin O a /\ S' (S m) = S' m * o_cos O a + C m * o_sin O a)%Qc as Step.
  { intros m. apply A. }
  unfold al, be. replace (2 * c + 2) with (S (S (2 * c))) by lia. replace (2 * c + 1) with (S (2 * c)) by lia.
  destruct (Step (S (2 * c))) as [-> ->]. destruct (Step (2 * c)) as [-> ->]. specialize (Unit (2 * c)).
  set (x := C (2 * c)) in *. set (y := S' (2 * c)) in *. clearbody x y.
  assert (o_sin O a * o_sin O a = 1 - o_cos O a * o_cos O a)%Qc as Sq by (rewrite <- U; ring).
  unfold D in *. set (co := o_cos O a) in *. set (si := o_sin O a) in *. clearbody co si.
  match goal with |- (?p / ?q * (?p / ?q) + ?r / ?q * (?r / ?q) = 1)%Qc =>
    transitivity ((p * p + r * r) / (q * q))%Qc; [field; exact Dn|];
    assert (p * p + r * r = q * q)%Qc as E end.
  { transitivity ((x * x + y * y) *
      (((1 - t) * (1 - t) + (1 + 1) * t * (1 - t) * co + t * t * (co * co - si * si)) *
       ((1 - t) * (1 - t) + (1 + 1) * t * (1 - t) * co + t * t * (co * co - si * si)) +
       (si * si) * (((1 + 1) * t * (1 - t) + t * t * (co + co)) * ((1 + 1) * t * (1 - t) + t * t * (co + co)))))%Qc; [ring|].
    rewrite Unit, Sq. ring. }
  rewrite E. field. exact Dn.
Qed.

(** The whole revolution. *)
Lemma revolution O limit dim s axis center angle asked degree i : constants O -> sound limit dim s ->
  revolved O s axis center angle asked degree = Some i ->
  exists n, enough_spans O (radians O angle degree) asked n /\
    let dim' := revolved_dim dim axis in
    let k := direction O axis in
    let a := (radians O angle degree / (inj 2 * inj n))%Qc in
    dim <= dim' /\ dim' = space (as_vector k) /\ match k with Some l => length l = 3 | None => True end /\
    match center with Some c => length c = dim' | None => True end /\ (has_kvs s = false -> n = 1) /\
    match axis with Some v => (o_tolerance O < qabs (o_norm O v))%Qc | None => True end /\
    i = turn_inputs O s dim' k center a n.
Proof.
  intros HO So H. destruct (revolved_spec O limit dim s axis center angle asked degree HO So) as (n & _ & En & E).
  rewrite E in H. destruct (_ && _) eqn:B in H; [|discriminate]. injection H as <-.
  rewrite !andb_true_iff in B. destruct B as ((((B1 & B2) & B3) & B4) & B5).
  exists n. split; [exact En|]. cbn zeta. apply Nat.leb_le in B1. split; [exact B1|].
  assert (revolved_dim dim axis = space (as_vector (direction O axis)) /\ match direction O axis with Some l => length l = 3 | None => True end) as [X1 X2].
  { unfold revolved_dim, direction in *. destruct axis as [v|]; cbn [as_vector option_map space].
    - apply orb_true_iff in B2. rewrite !Nat.eqb_eq in B2. destruct (Nat.eqb_spec (length v) 3); cbn [option_map space].
      + split; [auto|]. now rewrite map_length.
      + split; [destruct B2; [assumption|contradiction]|auto].
    - apply Nat.eqb_eq in B3. auto. }
  split; [exact X1|]. split; [exact X2|]. split; [destruct center; [now apply Nat.eqb_eq|easy]|].
  split; [intros K; rewrite K in B5; now apply Nat.eqb_eq|]. split; [|reflexivity].
  destruct axis as [v|]; [|easy]. destruct (qleb_spec (qabs (o_norm O v)) (o_tolerance O)) as [L|L]; [discriminate|]. qlra.
Qed.
Lemma direction_unit O axis : constants O -> match axis with Some v => (o_tolerance O < qabs (o_norm O v))%Qc /\ measures O v | None => True end ->
  unit_axis (as_vector (direction O axis)).
Proof.
  intros [_ T] H. unfold direction. destruct axis as [v|]; [|easy]. destruct H as [N M].
  destruct (Nat.eqb_spec (length v) 3) as [L|]; [|easy]. cbn [as_vector option_map unit_axis].
  destruct v as [|x [|y [|z [|? ?]]]]; cbn in L; try lia. cbn [map nth].
  unfold measures, dot in M. cbn [combine map fst snd qsum] in M. set (m := o_norm O [x; y; z]) in *.
  assert (m <> 0%Qc) as Nm by (intros E; rewrite E in N; unfold qabs in N; destruct (Qclt_le_dec 0 0) in N; qlra).
  transitivity ((x * x + (y * y + (z * z + 0))) / (m * m))%Qc; [field; exact Nm|]. rewrite <- M. field. exact Nm.
Qed.
