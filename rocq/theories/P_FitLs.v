(** Proofs about fitting: least squares. *)
From Coq Require Import List Arith ZArith Lia Bool QArith Qcanon Qround.
From Verif Require Import Base BaseQc S_Grid S_Spline P_Spline S_Value P_Value M_Core S_Core P_Core S_Solve P_Solve
  M_Create S_Create P_Create P_Shapes M_Fit S_Fit P_Fit.
Import ListNotations.
Local Open Scope list_scope.
Local Open Scope nat_scope.

(** * Least squares over functions *)
Definition sq (x : Qc) : Qc := (x * x)%Qc.
Lemma sq_nonneg x : (0 <= sq x)%Qc.
Proof. unfold sq. qnra. Qed.
Lemma sq_zero x : sq x = 0%Qc -> x = 0%Qc.
Proof. unfold sq. intros H. apply Qcmult_integral in H. tauto. Qed.
Lemma qsum_sq_zero {A} (f : A -> Qc) l : (qsum (map (fun k => sq (f k)) l) <= 0)%Qc -> forall k, In k l -> f k = 0%Qc.
Proof.
  induction l as [|x l IH]; intros H k Hk; [easy|]. cbn in H. change (fold_right Qcplus 0%Qc) with qsum in H.
  pose proof (sq_nonneg (f x)) as P. pose proof (qsum_nonneg (fun k => sq (f k)) l ltac:(intros; apply sq_nonneg)) as Q.
  destruct Hk as [->|Hk].
  - apply sq_zero. apply Qcle_antisym; auto. clear IH. qlra.
  - apply IH; auto. clear IH. qlra.
Qed.

Section Normal.
Variables (l m : nat) (A : nat -> nat -> Qc) (b x : nat -> Qc).
Definition ap (c : nat -> Qc) (k : nat) : Qc := qsum (map (fun i => A k i * c i)%Qc (seq 0 m)).
Hypothesis N : forall j, j < m -> qsum (map (fun k => A k j * (ap x k - b k))%Qc (seq 0 l)) = 0%Qc.

Lemma normal_split c :
  qsum (map (fun k => sq (ap c k - b k)) (seq 0 l)) =
  (qsum (map (fun k => sq (ap (fun i => c i - x i)%Qc k)) (seq 0 l)) + qsum (map (fun k => sq (ap x k - b k)) (seq 0 l)))%Qc.
Proof.
  assert (forall k, ap c k - b k = ap (fun i => c i - x i)%Qc k + (ap x k - b k))%Qc as E.
  { intros k. unfold ap. rewrite (qsum_ext (fun i => A k i * (c i - x i))%Qc (fun i => A k i * c i - A k i * x i)%Qc) by (intros; ring).
    rewrite qsum_map_sub. ring. }
  assert (qsum (map (fun k => ap (fun i => c i - x i)%Qc k * (ap x k - b k))%Qc (seq 0 l)) = 0%Qc) as Z.
  { unfold ap at 1.
    rewrite (qsum_ext _ (fun k => qsum (map (fun i => (c i - x i) * (A k i * (ap x k - b k)))%Qc (seq 0 m)))).
    - rewrite qsum_swap. apply qsum_zero. intros i Hi. apply in_seq in Hi. rewrite qsum_map_mul_l. rewrite N by lia. ring.
    - intros k _. rewrite <- qsum_map_mul_r. apply qsum_ext. intros i _. ring. }
  rewrite (qsum_ext (fun k => sq (ap c k - b k)) (fun k => (sq (ap (fun i => c i - x i)%Qc k) + sq (ap x k - b k)) +
     inj 2 * (ap (fun i => c i - x i)%Qc k * (ap x k - b k)))%Qc).
  - rewrite qsum_map_add, qsum_map_mul_l, Z, qsum_map_add. ring.
  - intros k _. rewrite E. unfold sq. change (inj 2) with (1 + 1)%Qc. ring.
Qed.
Lemma normal_optimal c :
  (qsum (map (fun k => sq (ap x k - b k)) (seq 0 l)) <= qsum (map (fun k => sq (ap c k - b k)) (seq 0 l)))%Qc.
Proof.
  rewrite (normal_split c). pose proof (qsum_nonneg (fun k => sq (ap (fun i => c i - x i)%Qc k)) (seq 0 l) ltac:(intros; apply sq_nonneg)) as P.
  clear N. qlra.
Qed.
End Normal.

(** * Arrays *)
Lemma at_map {A B} (f : A -> B) l i d d' : i < length l -> nth i (map f l) d = f (nth i l d').
Proof. intros H. rewrite nth_indep with (d' := f d') by now rewrite map_length. apply map_nth. Qed.
Lemma entry_map_seq {A} (f : A -> nat -> Qc) l n d0 k j : k < length l -> j < n ->
  entry (map (fun r => map (f r) (seq 0 n)) l) k j = f (nth k l d0) j.
Proof.
  intros Hk Hj. unfold entry. rewrite at_map with (d' := d0) by auto. now rewrite at_map_seq.
Qed.
Lemma mat_mul_entry n a b k j : k < length a -> j < n ->
  entry (mat_mul n a b) k j = qsum (map (fun i => entry a k i * entry b i j)%Qc (seq 0 (length b))).
Proof. intros Hk Hj. unfold mat_mul. rewrite (entry_map_seq _ _ _ []) by auto. reflexivity. Qed.
Lemma mat_mul_shaped n a b : shaped (length a) n (mat_mul n a b).
Proof.
  split; [apply map_length|]. apply Forall_forall. intros r Hr. unfold mat_mul in Hr. apply in_map_iff in Hr as (q & <- & _).
  now rewrite map_length, seq_length.
Qed.
Lemma transposed_entry m a j k : j < m -> k < length a -> entry (transposed m a) j k = entry a k j.
Proof.
  intros Hj Hk. unfold entry, transposed. rewrite at_map_seq by auto. cbn [Nat.add].
  now rewrite at_map with (d' := []) by auto.
Qed.
Lemma transposed_length m a : length (transposed m a) = m.
Proof. unfold transposed. now rewrite map_length, seq_length. Qed.

Definition independent (l m : nat) (a : mat) : Prop :=
  forall c : nat -> Qc, (forall k, k < l -> qsum (map (fun i => entry a k i * c i)%Qc (seq 0 m)) = 0%Qc) ->
    forall i, i < m -> c i = 0%Qc.

Section Solved.
Variable O : fit_oracles.
Hypothesis S0 : solving O.

Lemma gram_regular l m a : shaped l m a -> independent l m a ->
  ~ singular (mat_mul m (transposed m a) a).
Proof.
  clear S0. intros Sh Ind (v & (Lv & E) & k & Hk & Hn).
  assert (length (mat_mul m (transposed m a) a) = m) as Lm by (unfold mat_mul; now rewrite map_length, transposed_length).
  rewrite Lm in *. apply Hn. clear Hn. pose proof (proj1 Sh) as La.
  set (f := fun i => nth i v 0%Qc).
  assert (forall r, r < m -> qsum (map (fun k => entry a k r * ap m (entry a) f k)%Qc (seq 0 l)) = 0%Qc) as Z.
  { intros r Hr. specialize (E r Hr). unfold row_times in E. rewrite Lm in E.
    rewrite (qsum_ext _ (fun i => qsum (map (fun k => entry a k r * (entry a k i * f i))%Qc (seq 0 l)))) in E.
    - rewrite qsum_swap in E. transitivity (nth r (@nil Qc) 0%Qc); [|now destruct r]. rewrite <- E.
      apply qsum_ext. intros q _. unfold ap. now rewrite qsum_map_mul_l.
    - intros i Hi. apply in_seq in Hi. rewrite mat_mul_entry by (rewrite ?transposed_length; lia). rewrite La.
      rewrite <- qsum_map_mul_r. apply qsum_ext. intros q Hq. apply in_seq in Hq. rewrite transposed_entry by lia.
      unfold f. ring. }
  apply (Ind f); auto. intros q Hq.
  apply (qsum_sq_zero (ap m (entry a) f) (seq 0 l)); [|apply in_seq; lia].
  assert (qsum (map (fun k => sq (ap m (entry a) f k)) (seq 0 l)) =
    qsum (map (fun i => f i * qsum (map (fun k => entry a k i * ap m (entry a) f k) (seq 0 l)))%Qc (seq 0 m))) as ->.
  { rewrite (qsum_ext (fun i => f i * _)%Qc (fun i => qsum (map (fun k => f i * (entry a k i * ap m (entry a) f k))%Qc (seq 0 l)))).
    - rewrite qsum_swap. apply qsum_ext. intros k0 _.
      rewrite (qsum_ext _ (fun i => (entry a k0 i * f i) * ap m (entry a) f k0)%Qc) by (intros; ring).
      now rewrite qsum_map_mul_r.
    - intros i _. now rewrite qsum_map_mul_l. }
  rewrite qsum_zero; [apply Qcle_refl|]. intros i Hi. apply in_seq in Hi. rewrite Z by lia. ring.
Qed.

Lemma solved_normal scipy l m n a b : 1 <= m -> shaped l m a -> shaped l n b -> independent l m a ->
  shaped m n (solved O scipy n m a b) /\
  forall j d, j < m -> d < n ->
    qsum (map (fun k => entry a k j * (ap m (entry a) (fun i => entry (solved O scipy n m a b) i d) k - entry b k d))%Qc (seq 0 l)) = 0%Qc.
Proof.
  intros Hm Sa Sb Ind. unfold solved. destruct scipy.
  - cbv zeta. set (g := mat_mul m (transposed m a) a). set (r := mat_mul n (transposed m a) b).
    assert (shaped m m g) as Sg. { pose proof (mat_mul_shaped m (transposed m a) a) as H. now rewrite transposed_length in H. }
    assert (shaped m n r) as Sr. { pose proof (mat_mul_shaped n (transposed m a) b) as H. now rewrite transposed_length in H. }
    destruct (proj1 S0 m n g r Hm Sg Sr (gram_regular l m a Sa Ind)) as [Sx E]. split; auto.
    intros j d Hj Hd. specialize (E j d Hj Hd). set (X := f_spsolve O g r) in *. clearbody X.
    unfold r in E. rewrite mat_mul_entry in E by (rewrite ?transposed_length; lia). rewrite (proj1 Sb) in E.
    rewrite (qsum_ext _ (fun i => qsum (map (fun k => entry a k j * (entry a k i * entry X i d))%Qc (seq 0 l)))) in E.
    + rewrite qsum_swap in E.
      rewrite (qsum_ext _ (fun k => entry a k j * ap m (entry a) (fun i => entry X i d) k - entry a k j * entry b k d)%Qc) by (intros; ring).
      rewrite qsum_map_sub.
      rewrite (qsum_ext (fun k => entry a k j * ap _ _ _ k)%Qc (fun k => qsum (map (fun i => entry a k j * (entry a k i * entry X i d))%Qc (seq 0 m)))).
      * rewrite E. rewrite (qsum_ext (fun i => entry (transposed m a) j i * entry b i d)%Qc (fun k => entry a k j * entry b k d)%Qc); [ring|].
        intros k Hk. apply in_seq in Hk. rewrite transposed_entry; auto. rewrite (proj1 Sa). lia.
      * intros k _. unfold ap. now rewrite qsum_map_mul_l.
    + intros i Hi. apply in_seq in Hi. unfold g. rewrite mat_mul_entry by (rewrite ?transposed_length; lia). rewrite (proj1 Sa).
      rewrite <- qsum_map_mul_r. apply qsum_ext. intros k Hk. apply in_seq in Hk. rewrite transposed_entry by (rewrite ?(proj1 Sa); lia). ring.
  - apply (proj2 S0 l m n a b Hm Sa Sb Ind).
Qed.
End Solved.

(** * Values of curves *)
Definition weighted_shape (s : spline) : Prop :=
  match sp_weights s with Some ws => length ws = length (sp_cps s) | None => True end.
Lemma curve_value s a cps u d : sp_axes s = [a] ->
  sp_value (Spl (sp_axes s) cps (sp_weights s)) [u] d =
  qsum (map (fun i => basis_value s u i * nth d (nth i cps []) 0)%Qc (seq 0 (ax_n a))).
Proof.
  intros Ea. rewrite sp_value_functional. cbn [sp_axes sp_cps sp_weights]. unfold basis_value. rewrite Ea.
  destruct (sp_weights s) as [ws|].
  - rewrite !functional_axis. unfold Qcdiv. rewrite <- qsum_map_mul_r. apply qsum_ext. intros i _.
    rewrite (qsum_ext (fun j => ax_fun a u j * nth j ws 0)%Qc (fun j => nth j ws 0 * ax_fun a u j)%Qc) by (intros; ring). ring.
  - apply functional_axis.
Qed.

Lemma matrix_shaped s us : shaped (length us) (length (sp_cps s)) (coefficient_matrix s us).
Proof.
  unfold coefficient_matrix. split; [apply map_length|]. apply Forall_forall. intros r Hr. apply in_map_iff in Hr as (u & <- & _).
  now rewrite map_length, seq_length.
Qed.
Lemma matrix_entry s us k i : k < length us -> i < length (sp_cps s) -> entry (coefficient_matrix s us) k i = basis_value s (nth k us 0%Qc) i.
Proof. intros Hk Hi. unfold coefficient_matrix. now rewrite (entry_map_seq _ _ _ 0%Qc). Qed.

Lemma value_ap s us cps d k : curve_shape s -> length cps = length (sp_cps s) -> k < length us ->
  sp_value (Spl (sp_axes s) cps (sp_weights s)) [nth k us 0%Qc] d =
  ap (length (sp_cps s)) (entry (coefficient_matrix s us)) (fun i => entry cps i d) k.
Proof.
  intros (a & Ea & La) Lc Hk. rewrite (curve_value s a) by auto. unfold ap. rewrite La. apply qsum_ext. intros i Hi. apply in_seq in Hi.
  rewrite matrix_entry by lia. reflexivity.
Qed.
Lemma determined_independent s us : curve_shape s -> determined s us -> independent (length us) (length (sp_cps s)) (coefficient_matrix s us).
Proof.
  intros Sh D c H i Hi. specialize (D (map c (seq 0 (length (sp_cps s))))). rewrite map_length, seq_length in D. specialize (D eq_refl).
  assert (Forall (fun x => x = 0%Qc) (map c (seq 0 (length (sp_cps s))))) as F.
  { apply D. intros u Hu. apply In_nth with (d := 0%Qc) in Hu as (k & Hk & <-). rewrite value_ap by (auto; now rewrite !map_length, seq_length).
    rewrite <- (H k Hk). unfold ap. apply qsum_ext. intros j Hj. apply in_seq in Hj. f_equal.
    unfold entry. rewrite map_map. rewrite at_map_seq by lia. reflexivity. }
  rewrite Forall_forall in F. apply F. apply in_map, in_seq. lia.
Qed.

(** Error by coordinate. *)
Lemma error_eq dim s us pts : squared_error dim s us pts =
  qsum (map (fun d => qsum (map (fun k => sq (sp_value s [nth k us 0%Qc] d - entry pts k d)) (seq 0 (length pts)))) (seq 0 dim)).
Proof. unfold squared_error. rewrite qsum_swap. reflexivity. Qed.

Lemma same_space_value s s' us d k : curve_shape s -> same_space s s' -> k < length us ->
  sp_value s' [nth k us 0%Qc] d = ap (length (sp_cps s)) (entry (coefficient_matrix s us)) (fun i => entry (sp_cps s') i d) k.
Proof.
  intros Sh (E1 & E2 & E3) Hk. rewrite <- value_ap by auto. rewrite <- E1, <- E2. now destruct s'.
Qed.

Section Fitting.
Variables (O : fit_oracles) (scipy : bool) (s : spline) (pts : mat) (us : list Qc) (dim : nat).
Hypothesis S0 : solving O.
Hypothesis Sh : curve_shape s.
Hypothesis Sp : shaped (length us) dim pts.
Hypothesis D : determined s us.
Hypothesis Hne : 1 <= length (sp_cps s).

Let n := length (sp_cps s).
Let l := length us.

Lemma pts_length : length pts = length us.
Proof. exact (proj1 Sp). Qed.
Lemma us_ne : 1 <= length us.
Proof.
  clear S0. destruct us as [|u us'] eqn:E; [|cbn; lia]. exfalso.
  assert (Forall (fun x => x = 0%Qc) (repeat 1%Qc (length (sp_cps s)))) as F. { apply D; [apply repeat_length|]. easy. }
  rewrite Forall_forall in F. specialize (F 1%Qc). assert (1 = 0)%Qc as K; [|discriminate K]. apply F.
  destruct (length (sp_cps s)); [lia|]. now left.
Qed.
Lemma dim_pts : dim_of pts = dim.
Proof.
  pose proof us_ne as H. pose proof Sp as [L F]. unfold dim_of. destruct pts as [|p pts']; [cbn in L; lia|]. inversion F; subst. reflexivity.
Qed.

Lemma plain_optimal cps s' : cps = solved O scipy dim n (coefficient_matrix s us) pts -> same_space s s' ->
  length cps = n /\ (squared_error dim (with_cps s cps) us pts <= squared_error dim s' us pts)%Qc.
Proof.
  intros -> Ss. pose proof (solved_normal O S0 scipy l n dim (coefficient_matrix s us) pts Hne (matrix_shaped s us) Sp
    (determined_independent s us Sh D)) as [Sx N].
  split; [exact (proj1 Sx)|]. rewrite !error_eq. apply qsum_le. intros d Hd. apply in_seq in Hd.
  rewrite pts_length.
  set (X := solved O scipy dim n (coefficient_matrix s us) pts) in *.
  rewrite (qsum_ext (fun k => sq (sp_value (with_cps s X) _ d - _)) (fun k => sq (ap n (entry (coefficient_matrix s us)) (fun i => entry X i d) k - entry pts k d))).
  - rewrite (qsum_ext (fun k => sq (sp_value s' _ d - _)) (fun k => sq (ap n (entry (coefficient_matrix s us)) (fun i => entry (sp_cps s') i d) k - entry pts k d))).
    + apply (normal_optimal l n (entry (coefficient_matrix s us)) (fun k => entry pts k d)). intros j Hj. apply N; auto. lia.
    + intros k Hk. apply in_seq in Hk. rewrite same_space_value with (s := s); auto. lia.
  - intros k Hk. apply in_seq in Hk. rewrite same_space_value with (s := s); auto; [|lia].
    split; [reflexivity|]. split; [reflexivity|]. exact (proj1 Sx).
Qed.

(** A regular square system has a solution. *)
Lemma interpolant : length us = n -> exists s', same_space s s' /\ squared_error dim s' us pts = 0%Qc.
Proof.
  intros Hl. pose proof (determined_independent s us Sh D) as Ind. set (A := coefficient_matrix s us) in *.
  assert (length A = n) as LA by (unfold A, coefficient_matrix; now rewrite map_length).
  assert (~ singular A) as R.
  { intros (v & (Lv & E) & k & Hk & Hn). apply Hn. apply (Ind (fun i => nth i v 0%Qc)).
    - intros r Hr. rewrite LA in E. rewrite Hl in Hr. specialize (E r Hr). unfold row_times in E. rewrite LA in E.
      fold n. etransitivity; [exact E|]. now destruct r.
    - fold n. lia. }
  assert (forall d, exists x, solves A (map (fun k => entry pts k d) (seq 0 n)) x) as Ex.
  { intros d. destruct (solve_regular A (seq 0 (length A)) (map (fun k => entry pts k d) (seq 0 n)) (Permutation.Permutation_refl _) R) as (x & _ & Hx).
    now exists x. }
  assert (exists X : nat -> list Qc, forall d, d < dim -> solves A (map (fun k => entry pts k d) (seq 0 n)) (X d)) as (X & HX).
  { clear - Ex. induction dim as [|q IH]; [exists (fun _ => []); lia|]. destruct IH as (X & HX). destruct (Ex q) as (x & Hx).
    exists (fun d => if d =? q then x else X d). intros d Hd. destruct (Nat.eqb_spec d q); [now subst|]. apply HX. lia. }
  exists (Spl (sp_axes s) (map (fun i => map (fun d => nth i (X d) 0%Qc) (seq 0 dim)) (seq 0 n)) (sp_weights s)). split.
  - split; [reflexivity|]. split; [reflexivity|]. cbn. now rewrite map_length, seq_length.
  - rewrite error_eq. apply qsum_zero. intros d Hd. apply in_seq in Hd. apply qsum_zero. intros k Hk. apply in_seq in Hk.
    rewrite pts_length in Hk.
    rewrite value_ap by (auto; rewrite ?map_length, ?seq_length; auto; lia). fold A. fold n.
    assert (ap n (entry A) (fun i => entry (map (fun i => map (fun d => nth i (X d) 0%Qc) (seq 0 dim)) (seq 0 n)) i d) k = entry pts k d) as ->.
    { destruct (HX d ltac:(lia)) as [_ E]. rewrite LA in E. specialize (E k ltac:(lia)).
      rewrite at_map_seq in E by lia. cbn [Nat.add] in E. rewrite <- E. unfold row_times. rewrite LA. apply qsum_ext.
      intros i Hi. apply in_seq in Hi. f_equal. unfold entry. rewrite at_map_seq by lia. rewrite at_map_seq by lia. reflexivity. }
    unfold sq. ring.
Qed.

Lemma plain_interpolates cps : cps = solved O scipy dim n (coefficient_matrix s us) pts -> length us = n ->
  forall k d, k < length us -> d < dim -> sp_value (with_cps s cps) [nth k us 0%Qc] d = nth d (nth k pts []) 0%Qc.
Proof.
  intros E Hl k d Hk Hd. destruct (interpolant Hl) as (s' & Ss & Z). destruct (plain_optimal cps s' E Ss) as [_ Q]. rewrite Z in Q.
  rewrite error_eq in Q.
  assert (qsum (map (fun k => sq (sp_value (with_cps s cps) [nth k us 0%Qc] d - entry pts k d)) (seq 0 (length pts))) <= 0)%Qc as Q'.
  { apply Qcle_trans with (2 := Q). clear - Hd. 
    set (f := fun d => qsum (map (fun k => sq (sp_value (with_cps s cps) [nth k us 0%Qc] d - entry pts k d)) (seq 0 (length pts)))).
    change (f d <= qsum (map f (seq 0 dim)))%Qc.
    assert (forall d, (0 <= f d)%Qc) as P by (intros; apply qsum_nonneg; intros; apply sq_nonneg). clearbody f.
    assert (In d (seq 0 dim)) as Hi by (apply in_seq; lia). revert Hi. generalize (seq 0 dim). clear Hd. intros ds.
    induction ds as [|x ds IH]; intros Hi; [easy|]. cbn. change (fold_right Qcplus 0%Qc) with qsum.
    destruct Hi as [->|Hi].
    - pose proof (qsum_nonneg f ds ltac:(auto)) as R. clear IH. pose proof (P d). clear P. qlra.
    - specialize (IH Hi). pose proof (P x). clear P. qlra. }
  pose proof (qsum_sq_zero (fun k => sp_value (with_cps s cps) [nth k us 0%Qc] d - entry pts k d)%Qc _ Q' k) as Z'.
  rewrite pts_length in Z'. specialize (Z' ltac:(apply in_seq; lia)). cbv beta in Z'. unfold entry in Z'.
  set (v := sp_value (with_cps s cps) [nth k us 0%Qc] d) in *. clearbody v.
  replace v with (v - nth d (nth k pts []) 0 + nth d (nth k pts []) 0)%Qc by ring. rewrite Z'. ring.
Qed.
End Fitting.

(** * Interpolated end points *)
Lemma inner_length {A} (l : list A) : length (inner l) = length l - 2.
Proof.
  unfold inner. destruct l as [|x l]; [reflexivity|]. cbn [tl length]. 
  destruct l as [|y l] using rev_ind; [reflexivity|]. rewrite removelast_last, app_length. cbn. lia.
Qed.
Lemma inner_nth {A} (l : list A) i d : i + 2 < length l -> nth i (inner l) d = nth (i + 1) l d.
Proof.
  intros H. unfold inner. destruct l as [|x l]; [cbn in H; lia|]. cbn [tl length] in *.
  destruct l as [|y l] using rev_ind; [cbn in H; lia|]. rewrite removelast_last. rewrite app_length in H. cbn in H.
  replace (i + 1) with (S i) by lia. cbn [nth]. rewrite app_nth1 by lia. reflexivity.
Qed.
Lemma inner_entry a k i l m : shaped l m a -> k + 2 < l -> i + 2 < m -> entry (map (@inner Qc) (inner a)) k i = entry a (k + 1) (i + 1).
Proof.
  intros [L F] Hk Hi. unfold entry. rewrite at_map with (d' := []) by (rewrite inner_length; lia).
  rewrite (inner_nth a) by lia. apply inner_nth. rewrite Forall_forall in F. rewrite F by (apply nth_In; lia). lia.
Qed.
Lemma inner_shaped a l m : shaped l m a -> shaped (l - 2) (m - 2) (map (@inner Qc) (inner a)).
Proof.
  intros [L F]. split; [now rewrite map_length, inner_length, L|]. apply Forall_forall. intros r Hr.
  apply in_map_iff in Hr as (q & <- & Hq). rewrite inner_length. f_equal. rewrite Forall_forall in F. apply F.
  apply In_nth with (d := []) in Hq as (k & Hk & <-). rewrite inner_length in Hk. rewrite inner_nth by lia. apply nth_In. lia.
Qed.
Lemma qsum_ends (f : nat -> Qc) n : 2 <= n ->
  qsum (map f (seq 0 n)) = (f 0%nat + qsum (map (fun i => f (i + 1)%nat) (seq 0 (n - 2))) + f (n - 1)%nat)%Qc.
Proof.
  intros H. replace n with (S (S (n - 2))) at 1 by lia. rewrite seq_S, map_app, qsum_app. cbn [Nat.add map].
  replace (S (n - 2)) with (n - 1) by lia. replace (n - 1) with (S (n - 2)) at 1 by lia. cbn [seq map].
  change (qsum (f 0 :: map f (seq 1 (n - 2)))) with (f 0%nat + qsum (map f (seq 1 (n - 2))))%Qc.
  change (qsum [f (n - 1)]) with (f (n - 1)%nat + 0)%Qc. rewrite <- seq_shift, map_map.
  rewrite (map_ext (fun x => f (S x)) (fun i => f (i + 1))) by (intros; f_equal; lia). ring.
Qed.

Lemma delta_sum (f : nat -> Qc) n j : j < n -> qsum (map (fun i => (if i =? j then 1 else 0) * f i)%Qc (seq 0 n)) = f j.
Proof.
  intros H. rewrite (qsum_single (fun i => (if i =? j then 1 else 0) * f i)%Qc n j) .
  - rewrite Nat.eqb_refl. ring.
  - exact H.
  - intros i Hi Hn. destruct (Nat.eqb_spec i j); [contradiction|ring].
Qed.
Lemma basis_delta s a u j i : sp_axes s = [a] -> ax_n a = length (sp_cps s) -> positive_weights s ->
  (forall i, i < ax_n a -> ax_fun a u i = if i =? j then 1%Qc else 0%Qc) -> j < ax_n a -> i < ax_n a ->
  basis_value s u i = if i =? j then 1%Qc else 0%Qc.
Proof.
  intros Ea La Pw F Hj Hi. unfold basis_value. rewrite Ea. destruct (sp_weights s) as [ws|] eqn:Ew; [|now apply F].
  unfold positive_weights in Pw. rewrite Ew in Pw. destruct Pw as [Lw Pw].
  rewrite (qsum_ext _ (fun i => (if i =? j then 1 else 0) * nth i ws 0)%Qc) by (intros k Hk; apply in_seq in Hk; rewrite F by lia; ring).
  rewrite delta_sum by auto. rewrite F by auto. assert (nth j ws 0%Qc <> 0%Qc) as Nz.
  { rewrite Forall_forall in Pw. intro Z. specialize (Pw (nth j ws 0%Qc) ltac:(apply nth_In; lia)). rewrite Z in Pw. discriminate Pw. }
  destruct (Nat.eqb_spec i j) as [->|N]; [now field|]. unfold Qcdiv. ring.
Qed.

Lemma lower_lt_upper a : ax_wf a -> (ax_lower a < ax_upper a)%Qc.
Proof. destruct a as [p|p kv]; cbn [ax_lower ax_upper ax_wf]; [reflexivity|]. intros W. apply W. Qed.

Section Ends.
Variables (O : fit_oracles) (scipy : bool) (s : spline) (pts : mat) (us : list Qc) (dim : nat).
Hypothesis S0 : solving O.
Hypothesis R : end_ready s us.
Hypothesis Sp : shaped (length us) dim pts.
Hypothesis D : determined s us.

Let n := length (sp_cps s).
Let l := length us.
Let A := coefficient_matrix s us.

Lemma ready_shape : curve_shape s.
Proof. clear - R. destruct R as (a & Ea & La & _). now exists a. Qed.
Lemma ready_ne : 1 <= length (sp_cps s).
Proof. clear - R. destruct R as (a & Ea & La & W & _). rewrite La. now apply ax_n_pos. Qed.
Lemma ready_two : 2 <= length us.
Proof.
  clear - R. destruct R as (a & _ & _ & W & _ & _ & H1 & H2). pose proof (lower_lt_upper a W) as P. rewrite <- H1, <- H2 in P.
  destruct us as [|x [|y us']]; cbn in *; try lia.
  - exfalso. revert P. apply Qcle_not_lt, Qcle_refl.
  - exfalso. revert P. apply Qcle_not_lt, Qcle_refl.
Qed.
Lemma first_row i : i < n -> entry A 0 i = if i =? 0 then 1%Qc else 0%Qc.
Proof.
  intros Hi. pose proof ready_two as T. unfold A. rewrite matrix_entry by (auto; lia). pose proof R as (a & Ea & La & W & C & Pw & H1 & H2).
  assert (nth 0 us 0%Qc = ax_lower a) as ->. { rewrite <- H1. now destruct us. }
  unfold n in *. apply (basis_delta s a); auto; try lia. intros; now apply ax_fun_lower.
Qed.
Lemma last_row i : i < n -> entry A (l - 1) i = if i =? n - 1 then 1%Qc else 0%Qc.
Proof.
  intros Hi. pose proof ready_two as T. unfold A. rewrite matrix_entry by (unfold l; auto; lia). pose proof R as (a & Ea & La & W & C & Pw & H1 & H2).
  assert (nth (l - 1) us 0%Qc = ax_upper a) as ->. { rewrite <- H2. now rewrite last_nth. }
  unfold n in *. apply (basis_delta s a); auto; try lia. rewrite La. intros; now apply ax_fun_upper.
Qed.
Lemma first_ap c : ap n (entry A) c 0 = c 0.
Proof.
  unfold ap. rewrite (qsum_ext _ (fun i => (if i =? 0 then 1 else 0) * c i)%Qc).
  - apply delta_sum. exact ready_ne.
  - intros i Hi. apply in_seq in Hi. now rewrite first_row by lia.
Qed.
Lemma last_ap c : ap n (entry A) c (l - 1) = c (n - 1).
Proof.
  unfold ap. rewrite (qsum_ext _ (fun i => (if i =? n - 1 then 1 else 0) * c i)%Qc).
  - apply delta_sum. pose proof ready_ne. unfold n. lia.
  - intros i Hi. apply in_seq in Hi. now rewrite last_row by lia.
Qed.
(** Values at the ends are the end control points. *)
Lemma first_value s' d : same_space s s' -> sp_value s' [hd 0%Qc us] d = entry (sp_cps s') 0 d.
Proof.
  intros Ss. pose proof ready_two. replace (hd 0%Qc us) with (nth 0 us 0%Qc) by now destruct us.
  rewrite same_space_value with (s := s) by (auto using ready_shape; lia). apply first_ap.
Qed.
Lemma last_value s' d : same_space s s' -> sp_value s' [last us 0%Qc] d = entry (sp_cps s') (n - 1) d.
Proof.
  intros Ss. pose proof ready_two. rewrite last_nth.
  rewrite same_space_value with (s := s) by (auto using ready_shape; lia). apply last_ap.
Qed.

Lemma inner_independent : 3 <= n -> independent (l - 2) (n - 2) (map (@inner Qc) (inner A)).
Proof.
  intros Hn c H i Hi.
  set (c' := fun j => if (j =? 0) || (j =? n - 1) then 0%Qc else c (j - 1)).
  replace (c i) with (c' (i + 1)).
  2:{ unfold c'. destruct (Nat.eqb_spec (i + 1) 0), (Nat.eqb_spec (i + 1) (n - 1)); try lia. cbn. f_equal. lia. }
  apply (determined_independent s us ready_shape D); [|fold n; lia]. intros k Hk. fold A. fold n.
  change (ap n (entry A) c' k = 0%Qc).
  destruct (Nat.eq_dec k 0) as [->|K0]; [rewrite first_ap; reflexivity|].
  destruct (Nat.eq_dec k (l - 1)) as [->|K1].
  { rewrite last_ap. unfold c'. rewrite Nat.eqb_refl, orb_true_r. reflexivity. }
  pose proof ready_two as T. assert (k - 1 < l - 2) as Hk' by (unfold l in *; lia).
  specialize (H (k - 1) Hk'). unfold ap. rewrite qsum_ends by lia.
  unfold c' at 1. cbn [Nat.eqb orb]. unfold c' at 2. rewrite Nat.eqb_refl, orb_true_r.
  rewrite (qsum_ext _ (fun i => entry (map (@inner Qc) (inner A)) (k - 1) i * c i)%Qc).
  - rewrite H. ring.
  - intros j Hj. apply in_seq in Hj. rewrite (inner_entry A _ _ l n) by (auto; try apply matrix_shaped; lia).
    replace (k - 1 + 1) with k by lia. f_equal. unfold c'. destruct (Nat.eqb_spec (j + 1) 0), (Nat.eqb_spec (j + 1) (n - 1)); try lia.
    cbn. f_equal. lia.
Qed.

Let rhs := map (fun ap => row_sub (snd ap)
             (row_add (row_scale (hd 0%Qc (fst ap)) (hd [] pts)) (row_scale (last (fst ap) 0%Qc) (last pts []))))
             (combine (inner A) (inner pts)).
Lemma pts_row k : k < l -> length (nth k pts []) = dim.
Proof. intros Hk. pose proof Sp as [L F]. rewrite Forall_forall in F. apply F, nth_In. rewrite L. exact Hk. Qed.
Lemma first_pt : hd [] pts = nth 0 pts [].
Proof. now destruct pts. Qed.
Lemma last_pt : last pts [] = nth (l - 1) pts [].
Proof. rewrite last_nth. now rewrite (proj1 Sp). Qed.
Lemma rhs_row k : k + 2 < l -> nth k rhs [] = row_sub (nth (k + 1) pts [])
   (row_add (row_scale (entry A (k + 1) 0) (nth 0 pts [])) (row_scale (entry A (k + 1) (n - 1)) (nth (l - 1) pts []))).
Proof.
  intros Hk. pose proof (matrix_shaped s us) as [LA FA]. fold A in LA, FA. pose proof (proj1 Sp) as LP.
  unfold rhs. rewrite at_map with (d' := ([], [])) by (rewrite combine_length, !inner_length; unfold l in *; lia).
  rewrite combine_nth by (rewrite !inner_length; lia). cbn [fst snd].
  rewrite !inner_nth by (unfold l in *; lia). rewrite first_pt, last_pt. unfold entry.
  rewrite last_nth. rewrite Forall_forall in FA. rewrite (FA (nth (k + 1) A [])) by (apply nth_In; unfold l in *; lia). fold n.
  f_equal. f_equal. f_equal. now destruct (nth (k + 1) A []).
Qed.
Lemma rhs_shaped : shaped (l - 2) dim rhs.
Proof.
  pose proof (matrix_shaped s us) as [LA FA]. fold A in LA, FA. pose proof (proj1 Sp) as LP.
  assert (length rhs = l - 2) as L. { unfold rhs. rewrite map_length, combine_length, !inner_length. unfold l. lia. }
  split; auto. apply Forall_forall. intros r Hr. apply In_nth with (d := []) in Hr as (k & Hk & <-). rewrite rhs_row by lia.
  pose proof ready_two. fold l in H.
  rewrite row_sub_length, row_add_length, !row_scale_length. rewrite !pts_row by lia. lia.
Qed.
Lemma rhs_entry k d : k + 2 < l ->
  entry rhs k d = (entry pts (k + 1)%nat d - (entry A (k + 1)%nat 0%nat * entry pts 0%nat d + entry A (k + 1)%nat (n - 1)%nat * entry pts (l - 1)%nat d))%Qc.
Proof.
  intros Hk. unfold entry at 1. rewrite rhs_row by auto. pose proof ready_two as T. fold l in T.
  rewrite row_sub_nth by (rewrite row_add_length, !row_scale_length, !pts_row by lia; lia).
  rewrite row_add_nth by (rewrite !row_scale_length, !pts_row by lia; lia). rewrite !row_scale_nth. reflexivity.
Qed.

Lemma ends_optimal cps s' : 3 <= n ->
  cps = hd [] pts :: solved O scipy dim (n - 2) (map (@inner Qc) (inner A)) rhs ++ [last pts []] ->
  length cps = n /\ nth 0 cps [] = nth 0 pts [] /\ nth (n - 1) cps [] = nth (l - 1) pts [] /\
  (same_space s s' -> (forall d, d < dim -> sp_value s' [hd 0%Qc us] d = entry pts 0 d) ->
   (forall d, d < dim -> sp_value s' [last us 0%Qc] d = entry pts (l - 1) d) ->
   (squared_error dim (with_cps s cps) us pts <= squared_error dim s' us pts)%Qc).
Proof.
  intros Hn Ec.
  pose proof (solved_normal O S0 scipy (l - 2) (n - 2) dim (map (@inner Qc) (inner A)) rhs ltac:(lia)
     (inner_shaped A l n (matrix_shaped s us)) rhs_shaped (inner_independent Hn)) as [Sx N].
  set (X := solved O scipy dim (n - 2) (map (@inner Qc) (inner A)) rhs) in *. clearbody X.
  assert (length cps = n) as Lc. { rewrite Ec. cbn [length]. rewrite app_length, (proj1 Sx). cbn. lia. }
  assert (nth 0 cps [] = nth 0 pts []) as C0. { rewrite Ec. cbn [nth]. apply first_pt. }
  assert (nth (n - 1) cps [] = nth (l - 1) pts []) as C1.
  { rewrite Ec. replace (n - 1) with (S (n - 2)) by lia. cbn [nth]. rewrite app_nth2 by (rewrite (proj1 Sx); lia).
    rewrite (proj1 Sx), Nat.sub_diag. cbn [nth]. apply last_pt. }
  assert (forall i, i < n - 2 -> nth (i + 1) cps [] = nth i X []) as Ci.
  { intros i Hi. rewrite Ec. replace (i + 1) with (S i) by lia. cbn [nth]. rewrite app_nth1 by (rewrite (proj1 Sx); lia). reflexivity. }
  split; auto. split; auto. split; auto. intros Ss V0 V1. pose proof ready_two as T. fold l in T.
  assert (same_space s (with_cps s cps)) as Ss0 by now repeat split.
  rewrite !error_eq. apply qsum_le. intros d Hd. apply in_seq in Hd. rewrite (proj1 Sp). fold l.
  rewrite !(qsum_ends _ l) by lia.
  assert (forall s', same_space s s' -> forall k, k < l -> sp_value s' [nth k us 0%Qc] d = ap n (entry A) (fun i => entry (sp_cps s') i d) k) as VA.
  { intros s0 H k Hk. rewrite same_space_value with (s := s); auto. apply ready_shape. }
  assert (sp_value (with_cps s cps) [nth 0 us 0%Qc] d = entry pts 0 d) as E0.
  { rewrite VA by (auto; lia). rewrite first_ap. cbn [with_cps sp_cps]. unfold entry. now rewrite C0. }
  assert (sp_value (with_cps s cps) [nth (l - 1) us 0%Qc] d = entry pts (l - 1) d) as E1.
  { rewrite VA by (auto; lia). rewrite last_ap. cbn [with_cps sp_cps]. unfold entry. now rewrite C1. }
  rewrite E0, E1.
  specialize (V0 d ltac:(lia)). specialize (V1 d ltac:(lia)).
  replace (hd 0%Qc us) with (nth 0 us 0%Qc) in V0 by now destruct us. rewrite last_nth in V1. fold l in V1. rewrite V0, V1.
  assert (forall s', same_space s s' -> entry (sp_cps s') 0 d = entry pts 0 d -> entry (sp_cps s') (n - 1) d = entry pts (l - 1) d -> forall k, k < l - 2 ->
     (sp_value s' [nth (k + 1)%nat us 0%Qc] d - entry pts (k + 1)%nat d)%Qc =
     (ap (n - 2)%nat (entry (map (@inner Qc) (inner A))) (fun i => entry (sp_cps s') (i + 1)%nat d) k - entry rhs k d)%Qc) as Row.
  { intros s0 H Q0 Q1 k Hk. rewrite VA by (auto; lia). rewrite rhs_entry by lia. unfold ap at 1. rewrite qsum_ends by lia.
    rewrite Q0, Q1. unfold ap.
    rewrite (qsum_ext (fun i => entry (map (@inner Qc) (inner A)) k i * entry (sp_cps s0) (i + 1)%nat d)%Qc (fun i => entry A (k + 1)%nat (i + 1)%nat * entry (sp_cps s0) (i + 1)%nat d)%Qc).
    - ring.
    - intros i Hi. apply in_seq in Hi. rewrite (inner_entry A _ _ l n) by (auto; try apply matrix_shaped; lia). reflexivity. }
  assert (Qcle (qsum (map (fun k => sq (sp_value (with_cps s cps) [nth (k + 1) us 0%Qc] d - entry pts (k + 1) d)) (seq 0 (l - 2))))
          (qsum (map (fun k => sq (sp_value s' [nth (k + 1) us 0%Qc] d - entry pts (k + 1) d)) (seq 0 (l - 2))))) as Q.
  { rewrite (qsum_ext (fun k => sq (sp_value (with_cps s cps) _ d - _)) (fun k => sq (ap (n - 2) (entry (map (@inner Qc) (inner A))) (fun i => entry X i d) k - entry rhs k d))).
    - rewrite (qsum_ext (fun k => sq (sp_value s' _ d - _)) (fun k => sq (ap (n - 2) (entry (map (@inner Qc) (inner A))) (fun i => entry (sp_cps s') (i + 1) d) k - entry rhs k d))).
      + apply (normal_optimal (l - 2) (n - 2) (entry (map (@inner Qc) (inner A))) (fun k => entry rhs k d)). intros j Hj. apply N; auto. lia.
      + intros k Hk. apply in_seq in Hk. rewrite Row; auto; [| |lia].
        * rewrite <- first_value by auto. replace (hd 0%Qc us) with (nth 0 us 0%Qc) by now destruct us. exact V0.
        * rewrite <- last_value by auto. rewrite last_nth. exact V1.
    - intros k Hk. apply in_seq in Hk. rewrite Row; auto; [|cbn [with_cps sp_cps]; unfold entry; now rewrite C0|cbn [with_cps sp_cps]; unfold entry; now rewrite C1|lia].
      f_equal. f_equal. unfold ap. apply qsum_ext. intros i Hi. apply in_seq in Hi. f_equal. cbn [with_cps sp_cps]. unfold entry. now rewrite Ci by lia. }
  clear - Q. revert Q. generalize (sq (entry pts 0 d - entry pts 0 d)) (sq (entry pts (l - 1) d - entry pts (l - 1) d)). intros x y Q. qlra.
Qed.
End Ends.

(** * fit_spline *)
Lemma residual_eq O s us pts cps dim : curve_shape s -> shaped (length us) dim pts -> length cps = length (sp_cps s) -> dim_of pts = dim ->
  residual O s pts us cps = f_norm O (differences dim (with_cps s cps) us pts).
Proof.
  intros Sh Sp Lc Ed. unfold residual, differences. f_equal. f_equal. rewrite Ed. pose proof (proj1 Sp) as LP.
  apply nth_ext with (d := []) (d' := []).
  - rewrite !map_length, combine_length, seq_length. unfold mat_mul, coefficient_matrix. rewrite !map_length. lia.
  - rewrite map_length, combine_length. unfold mat_mul at 1, coefficient_matrix at 1. rewrite !map_length. intros k Hk.
    rewrite at_map with (d' := ([], [])) by (rewrite combine_length; unfold mat_mul, coefficient_matrix; rewrite !map_length; lia).
    rewrite combine_nth by (unfold mat_mul, coefficient_matrix; rewrite !map_length; lia). cbn [fst snd].
    rewrite at_map_seq by lia. cbn [Nat.add].
    assert (k < length (coefficient_matrix s us)) as Hk' by (unfold coefficient_matrix; rewrite map_length; lia).
    assert (length (nth k (mat_mul dim (coefficient_matrix s us) cps) []) = dim) as L1.
    { pose proof (mat_mul_shaped dim (coefficient_matrix s us) cps) as [L F]. rewrite Forall_forall in F. apply F, nth_In. now rewrite L. }
    assert (length (nth k pts []) = dim) as L2.
    { pose proof Sp as [L F]. rewrite Forall_forall in F. apply F, nth_In. lia. }
    apply nth_ext with (d := 0%Qc) (d' := 0%Qc).
    + rewrite row_sub_length, map_length, seq_length. lia.
    + rewrite row_sub_length. intros d Hd. rewrite row_sub_nth by lia. rewrite at_map_seq by lia. cbn [Nat.add].
      change (nth d (nth k (mat_mul dim (coefficient_matrix s us) cps) []) 0%Qc) with (entry (mat_mul dim (coefficient_matrix s us) cps) k d).
      rewrite mat_mul_entry by lia. unfold with_cps. rewrite value_ap by (auto; lia). unfold ap. now rewrite Lc.
Qed.

Lemma fit_best O scipy s pts us ends dim : solving O -> curve_shape s -> shaped (length us) dim pts -> determined s us ->
  1 <= length (sp_cps s) -> (ends = false \/ length (sp_cps s) = length pts) ->
  exists s' r, fit_spline O scipy s pts us ends = Fitted s' r /\ same_space s s' /\
    (forall s'', same_space s s'' -> (squared_error dim s' us pts <= squared_error dim s'' us pts)%Qc) /\
    (length (sp_cps s) = length pts -> interpolates dim s' us pts) /\ r = f_norm O (differences dim s' us pts).
Proof.
  intros S0 Sh Sp D Hn He. pose proof (dim_pts s pts us dim Sp D Hn) as Ed.
  pose proof (proj1 Sp) as LP. unfold fit_spline.
  assert (length (sp_axes s) = 1) as La by (destruct Sh as (a & Ea & _); now rewrite Ea). rewrite La. cbn [negb Nat.eqb].
  unfold fitted_points. rewrite LP, Nat.eqb_refl. cbn [negb]. rewrite Ed.
  assert (ends && negb (length (sp_cps s) =? length us) = false) as ->.
  { destruct He as [->|E]; [reflexivity|]. rewrite E, LP, Nat.eqb_refl. apply andb_false_r. }
  set (cps := solved O scipy dim (length (sp_cps s)) (coefficient_matrix s us) pts).
  assert (length cps = length (sp_cps s)) as Lc.
  { apply (plain_optimal O scipy s pts us dim S0 Sh Sp D Hn cps s eq_refl). now repeat split. }
  exists (with_cps s cps), (residual O s pts us cps). split; [reflexivity|]. split; [now repeat split|].
  split; [intros s'' H; apply (plain_optimal O scipy s pts us dim S0 Sh Sp D Hn cps s'' eq_refl H)|].
  split; [intros E k d Hk Hd; apply (plain_interpolates O scipy s pts us dim S0 Sh Sp D Hn cps eq_refl); auto; lia|].
  now apply residual_eq.
Qed.

Lemma fit_ends O scipy s pts us dim : solving O -> end_ready s us -> shaped (length us) dim pts -> determined s us ->
  2 <= length (sp_cps s) ->
  exists s' r, fit_spline O scipy s pts us true = Fitted s' r /\ same_space s s' /\
    (forall d, d < dim -> sp_value s' [hd 0%Qc us] d = nth d (hd [] pts) 0%Qc /\ sp_value s' [last us 0%Qc] d = nth d (last pts []) 0%Qc) /\
    (forall s'', same_space s s'' ->
       (forall d, d < dim -> sp_value s'' [hd 0%Qc us] d = nth d (hd [] pts) 0%Qc /\ sp_value s'' [last us 0%Qc] d = nth d (last pts []) 0%Qc) ->
       (squared_error dim s' us pts <= squared_error dim s'' us pts)%Qc) /\
    r = f_norm O (differences dim s' us pts).
Proof.
  intros S0 R Sp D Hn. pose proof (ready_shape s us R) as Sh. pose proof (ready_two s us R) as T. pose proof (proj1 Sp) as LP.
  assert (dim_of pts = dim) as Ed by (apply (dim_pts s pts us dim Sp D); lia).
  assert (length (sp_axes s) = 1) as La by (destruct Sh as (a & Ea & _); now rewrite Ea).
  destruct (Nat.eq_dec (length (sp_cps s)) (length us)) as [E|E].
  - destruct (fit_best O scipy s pts us true dim S0 Sh Sp D) as (s' & r & F1 & F2 & F3 & F4 & F5); try lia.
    exists s', r. split; auto. split; auto. split; [|split; auto].
    intros d Hd. assert (interpolates dim s' us pts) as I by (apply F4; lia). split.
    + replace (hd 0%Qc us) with (nth 0 us 0%Qc) by now destruct us. replace (hd [] pts) with (nth 0 pts []) by now destruct pts.
      apply I; auto. lia.
    + rewrite !last_nth, LP. apply I; auto. lia.
  - unfold fit_spline. rewrite La. cbn [negb Nat.eqb]. unfold fitted_points. rewrite LP, Nat.eqb_refl. cbn [negb].
    destruct (Nat.eqb_spec (length (sp_cps s)) (length us)); [contradiction|]. cbn [negb andb].
    assert (forall s'', same_space s s'' -> forall d, sp_value s'' [hd 0%Qc us] d = entry (sp_cps s'') 0 d) as V0 by (intros; eapply first_value; eauto).
    assert (forall s'', same_space s s'' -> forall d, sp_value s'' [last us 0%Qc] d = entry (sp_cps s'') (length (sp_cps s) - 1) d) as V1 by (intros; eapply last_value; eauto).
    destruct (Nat.eqb_spec (length (sp_cps s)) 2) as [E2|E2].
    + set (cps := [hd [] pts; last pts []]). assert (same_space s (with_cps s cps)) as Ss by (split; [reflexivity|split; [reflexivity|now rewrite E2]]).
      exists (with_cps s cps), (residual O s pts us cps). split; [reflexivity|]. split; auto. split; [|split; [|apply residual_eq; auto]].
      * intros d Hd. rewrite V0, V1 by auto. rewrite E2. split; reflexivity.
      * intros s'' Hs H. assert (forall k d, k < length us -> d < dim -> sp_value (with_cps s cps) [nth k us 0%Qc] d = sp_value s'' [nth k us 0%Qc] d) as EQ.
        { intros k d Hk Hd. rewrite !same_space_value with (s := s) by auto. unfold ap. apply qsum_ext. intros i Hi. apply in_seq in Hi.
          f_equal. destruct (H d Hd) as [H1 H2]. rewrite V0 in H1 by auto. rewrite V1 in H2 by auto. rewrite E2 in *.
          destruct i as [|[|i]]; [now rewrite H1|change 1 with (2 - 1); now rewrite H2|lia]. }
        rewrite !error_eq. apply qsum_le. intros d Hd. apply in_seq in Hd. apply qsum_le. intros k Hk. apply in_seq in Hk.
        rewrite EQ by lia. apply Qcle_refl.
    + destruct (Nat.ltb_spec (length (sp_cps s)) 2); [lia|]. rewrite Ed.
      set (cps := _ :: _ ++ _).
      destruct (ends_optimal O scipy s pts us dim S0 R Sp D cps s ltac:(lia) eq_refl) as (Lc & C0 & C1 & _).
      assert (same_space s (with_cps s cps)) as Ss by now repeat split.
      exists (with_cps s cps), (residual O s pts us cps). split; [reflexivity|]. split; auto. split; [|split; [|apply residual_eq; auto]].
      * intros d Hd. rewrite V0, V1 by auto. cbn [with_cps sp_cps]. unfold entry. rewrite C0, C1.
        replace (hd [] pts) with (nth 0 pts []) by now destruct pts. rewrite last_nth, LP. easy.
      * intros s'' Hs He. destruct (ends_optimal O scipy s pts us dim S0 R Sp D cps s'' ltac:(lia) eq_refl) as (_ & _ & _ & Q).
        apply Q; auto; intros d Hd; destruct (He d Hd) as [H1 H2].
        -- rewrite H1. unfold entry. now destruct pts.
        -- rewrite H2. rewrite last_nth, LP. reflexivity.
Qed.
