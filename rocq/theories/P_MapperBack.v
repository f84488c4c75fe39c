(** A back end that does what is asked of it: derivatives of polynomial splines inside
    the elements, and the inverse by elimination. *)
From Coq Require Import List Arith Lia ZArith Bool QArith Qcanon Lqa Permutation.
From Verif Require Import Base BaseQc BaseRadix S_Knots S_Spline S_Value S_Solve S_Deriv M_Solve P_Solve P_Basis P_Spline P_Value P_Deriv P_Fit P_FitLs S_Mapper M_Mapper P_Total P_Mapper.
Import ListNotations.
Local Open Scope list_scope.
Local Open Scope nat_scope.

(** Second derivatives of basis functions. *)
Fixpoint ddbasis (U : nat -> Qc) (s p i : nat) (u : Qc) : Qc :=
  (match p with
  | O => 0
  | S q => 1 / (U (i + S q)%nat - U i) * dbasis U s q i u +
           (1 / (U (i + S q)%nat - U i) * dbasis U s q i u + (u - U i) / (U (i + S q)%nat - U i) * ddbasis U s q i u)
           + (- (1 / (U (i + q + 2)%nat - U (i + 1)%nat)) * dbasis U s q (i + 1) u
              + (- (1 / (U (i + q + 2)%nat - U (i + 1)%nat)) * dbasis U s q (i + 1) u +
                 (U (i + q + 2)%nat - u) / (U (i + q + 2)%nat - U (i + 1)%nat) * ddbasis U s q (i + 1) u))
  end)%Qc.
Fixpoint ddqpow (x : Qc) (n : nat) : Qc :=
  (match n with O => 0 | S n => dqpow x n + (dqpow x n + x * ddqpow x n) end)%Qc.
Definition ddbernstein (p i : nat) (t : Qc) : Qc :=
  (inj (binom p i) * ((ddqpow t i * qpow (1 - t) (p - i) + dqpow t i * - dqpow (1 - t) (p - i))
    - (dqpow t i * dqpow (1 - t) (p - i) + qpow t i * - ddqpow (1 - t) (p - i))))%Qc.
(** Derivative of order [o] <= 2 of function [i] of an axis. *)
Definition ax_d (o : nat) (a : paxis) (u : Qc) (i : nat) : Qc :=
  match o with
  | 0 => ax_fun a u i
  | 1 => ax_dfun a u i
  | _ => match a with
         | BezierAxis p => ddbernstein p i u
         | KnotAxis p kv => ddbasis (kn kv) (find_span kv p (ax_n a) u) p i u
         end
  end.
Lemma dbasis_der U s p : forall i u, der (fun y => dbasis U s p i y) u (ddbasis U s p i u).
Proof.
  induction p as [|p IH]; intros i u; [exact (der_const 0 u)|]. cbn [dbasis ddbasis].
  apply der_add; [apply der_add|apply der_add].
  - apply der_scale. apply basis_der.
  - unfold Qcdiv. apply (der_mul (fun y => (y - U i) * _)%Qc); [|apply IH].
    eapply der_eq; [|apply der_mul; [apply der_sub; [apply der_id|apply der_const]|apply der_const]]. cbv beta. ring.
  - apply der_scale. apply basis_der.
  - unfold Qcdiv. apply (der_mul (fun y => (U (i + p + 2)%nat - y) * _)%Qc); [|apply IH].
    eapply der_eq; [|apply der_mul; [apply der_sub; [apply der_const|apply der_id]|apply der_const]]. cbv beta. ring.
Qed.
Lemma dqpow_der n : forall x, der (fun y => dqpow y n) x (ddqpow x n).
Proof.
  induction n as [|n IH]; intros x; [exact (der_const 0 x)|]. cbn [dqpow ddqpow]. apply der_add; [apply qpow_der|].
  eapply der_eq; [|apply der_mul; [apply der_id|apply IH]]. cbv beta. ring.
Qed.
Lemma dqpow_flip_der n : forall x, der (fun y => dqpow (1 - y) n) x (- ddqpow (1 - x) n)%Qc.
Proof.
  induction n as [|n IH]; intros x; [exact (der_const 0 x)|]. cbn [dqpow ddqpow].
  eapply der_eq; [|apply der_add; [apply qpow_flip_der|apply der_mul; [apply der_sub; [apply der_const|apply der_id]|apply IH]]]. cbv beta. ring.
Qed.
Lemma dbernstein_der p i t : der (fun y => dbernstein p i y) t (ddbernstein p i t).
Proof.
  unfold dbernstein, ddbernstein. apply der_scale. apply der_sub.
  - apply der_mul; [apply dqpow_der|apply qpow_flip_der].
  - apply der_mul; [apply qpow_der|apply dqpow_flip_der].
Qed.
Lemma ax_d_der a u i o : o <= 1 -> ax_wf a -> ax_inside a u -> der (fun y => ax_d o a y i) u (ax_d (S o) a u i).
Proof.
  intros Ho W H. destruct o as [|[|o]]; [|clear Ho|lia].
  - exact (ax_der a u i W H).
  - cbn [ax_d]. destruct a as [p|p kv]; [apply dbernstein_der|]. cbn [ax_fun ax_dfun ax_inside ax_wf] in *. destruct H as (s & H1 & H2 & H3 & H4).
    set (n := ax_n (KnotAxis p kv)) in *. destruct (span_near kv p n s u W H1 H2 H3 H4) as (r & Hr & K).
    assert (find_span kv p n u = s) as E. { apply K. replace (u - u)%Qc with 0%Qc by ring. exact Hr. }
    eapply der_ext; [exact Hr| |rewrite E; apply dbasis_der]. intros y Hy. cbv beta. now rewrite K.
Qed.
Lemma inside_open a u : ax_inside a u -> exists r, (0 < r)%Qc /\ forall y, (qabs (y - u) < r)%Qc -> ax_inside a y.
Proof.
  assert (G : forall x z : Qc, (x < u)%Qc -> (u < z)%Qc -> exists r, (0 < r)%Qc /\ forall y, (qabs (y - u) < r)%Qc -> (x < y)%Qc /\ (y < z)%Qc).
  { intros x z L R. destruct (two_radii (u - x) (z - u))%Qc as (r & Hr & A & B); [clear - L; qlra|clear - R; qlra|].
    exists r. split; auto. intros y Hy. unfold qabs in Hy. destruct (Qclt_le_dec (y - u) 0); split; qlra. }
  destruct a as [p|p kv]; cbn [ax_inside].
  - intros [L R]. apply G; auto.
  - intros (s & H1 & H2 & L & R). destruct (G _ _ L R) as (r & Hr & B). exists r. split; auto. intros y Hy. exists s. destruct (B y Hy). auto.
Qed.
Lemma all_inside_open axes : forall u, Forall2 ax_inside axes u -> eventually u (Forall2 ax_inside axes).
Proof.
  induction axes as [|a axes IH]; intros u H; inversion H as [|? x ? us H1 H2]; subst.
  - exists 1%Qc. split; [reflexivity|]. intros w N. inversion N. constructor.
  - destruct (inside_open _ _ H1) as (r1 & R1 & E1). destruct (IH _ H2) as (r2 & R2 & E2).
    destruct (two_radii _ _ R1 R2) as (r & Hr & A & B). exists r. split; auto. intros w N. inversion N as [|? y ? w' N1 N2]; subst.
    constructor.
    + apply E1. now apply Qclt_le_trans with r.
    + apply E2. now apply (near_weaken r).
Qed.

(** Totals of products. *)
Lemma distance_cons x u y w : distance (x :: u) (y :: w) = (qabs (y - x) + distance u w)%Qc.
Proof.
  unfold distance. cbn [length seq map nth]. unfold qsum at 1. cbn [fold_right]. f_equal.
  rewrite <- seq_shift, map_map. reflexivity.
Qed.
Lemma linear_cons x u D y w : linear (x :: u) D (y :: w) = (D 0%nat * (y - x) + linear u (fun j => D (S j)) w)%Qc.
Proof.
  unfold linear. cbn [length seq map nth]. unfold qsum at 1. cbn [fold_right]. f_equal.
  rewrite <- seq_shift, map_map. reflexivity.
Qed.
Lemma total_head f x g u : der f x g -> total (fun w => f (hd 0%Qc w)) (x :: u) (fun j => match j with 0 => g | S _ => 0%Qc end).
Proof.
  intros H e He. apply der_is_deriv in H. destruct (H e He) as (r & R & B). exists r. split; auto. intros w N.
  inversion N as [|? y ? w' N1 N2]; subst. change (qsum _) with (linear (x :: u) (fun j => match j with 0 => g | S _ => 0%Qc end) (y :: w')).
  rewrite linear_cons. cbn [hd]. rewrite linear_0. rewrite distance_cons.
  replace (f y - f x - (g * (y - x) + 0))%Qc with (f y - f x - g * (y - x))%Qc by ring.
  specialize (B y N1). pose proof (distance_nonneg u w') as D.
  assert (0 <= e * distance u w')%Qc by (apply Qc_mul_nonneg; auto; now apply Qclt_le_weak).
  replace (e * (qabs (y - x) + distance u w'))%Qc with (e * qabs (y - x) + e * distance u w')%Qc by ring. clear - B H0. qlra.
Qed.
Lemma total_tail f x u D : total f u D -> total (fun w => f (tl w)) (x :: u) (fun j => match j with 0 => 0%Qc | S j => D j end).
Proof.
  intros H e He. destruct (H e He) as (r & R & B). exists r. split; auto. intros w N.
  inversion N as [|? y ? w' N1 N2]; subst. change (qsum _) with (linear (x :: u) (fun j => match j with 0 => 0%Qc | S j => D j end) (y :: w')).
  rewrite linear_cons. cbn [tl]. rewrite distance_cons.
  replace (f w' - f u - (0 * (y - x) + linear u (fun j => D j) w'))%Qc with (f w' - f u - linear u D w')%Qc by (change (fun j => D j) with D; ring).
  specialize (B w' N2). pose proof (qabs_nonneg (y - x)) as D0. 
  assert (0 <= e * qabs (y - x))%Qc by (apply Qc_mul_nonneg; auto; now apply Qclt_le_weak).
  change (qsum _) with (linear u D w') in B.
  replace (e * (qabs (y - x) + distance u w'))%Qc with (e * qabs (y - x) + e * distance u w')%Qc by ring. clear - B H0. qlra.
Qed.

(** Products of axis functions, differentiated by orders. *)
Fixpoint pd (axes : list paxis) (os ix : list nat) (w : list Qc) : Qc :=
  match axes, os, ix, w with
  | a :: axes, o :: os, i :: ix, x :: w => (ax_d o a x i * pd axes os ix w)%Qc
  | _, _, _, _ => 1%Qc
  end.
Fixpoint bump (j : nat) (os : list nat) : list nat :=
  match os, j with
  | [], _ => []
  | o :: os, 0 => S o :: os
  | o :: os, S j => o :: bump j os
  end.
Lemma pd_total axes : forall os ix u, Forall ax_wf axes -> Forall2 ax_inside axes u -> length os = length axes -> length ix = length axes ->
  Forall (fun o => o <= 1) os -> total (pd axes os ix) u (fun j => pd axes (bump j os) ix u).
Proof.
  induction axes as [|a axes IH]; intros os ix u W I Lo Li Ho; inversion I as [|? x ? us I1 I2]; subst.
  - destruct os; [|easy]. destruct ix; [|easy]. apply (total_ext (fun _ => 1%Qc) _ [] (fun _ => 0%Qc)).
    + apply always. reflexivity.
    + cbn. intros; lia.
    + apply total_const.
  - destruct os as [|o os]; [easy|]. destruct ix as [|i ix]; [easy|]. inversion W; subst. inversion Ho; subst. cbn in Lo, Li.
    specialize (IH os ix us ltac:(auto) I2 ltac:(lia) ltac:(lia) ltac:(auto)).
    pose proof (total_mul _ _ (x :: us) _ _ (total_head _ x _ us (ax_d_der a x i o ltac:(auto) ltac:(auto) I1)) (total_tail _ x us _ IH)) as T.
    revert T. apply total_ext.
    + apply always. intros [|y w] L; [easy|]. reflexivity.
    + intros [|j] Hj; cbn [hd tl bump pd]; ring.
Qed.

Lemma bump_order1 n i : order1 n i = bump i (repeat 0 n).
Proof.
  unfold order1. revert i. induction n as [|n IH]; intros i; cbn; [now destruct i|].
  rewrite <- seq_shift, map_map. destruct i as [|i]; cbn.
  - f_equal. clear. induction n as [|n IH]; cbn; auto. f_equal. rewrite <- seq_shift, map_map. exact IH.
  - f_equal. apply IH.
Qed.
Lemma bump_order2 n i j : order2 n i j = bump j (order1 n i).
Proof.
  unfold order1, order2.
  assert (G : forall n s j, map (fun k => (if k =? i then 1 else 0) + (if k =? s + j then 1 else 0)) (seq s n) = bump j (map (fun k => if k =? i then 1 else 0) (seq s n))).
  { clear. induction n as [|n IH]; intros s j; cbn; [now destruct j|]. destruct j as [|j]; cbn [bump].
    - rewrite Nat.add_0_r, Nat.eqb_refl. f_equal; [lia|]. apply map_ext_in. intros k Hk. apply in_seq in Hk.
      replace (k =? s) with false by (symmetry; apply Nat.eqb_neq; lia). lia.
    - replace (s =? s + S j) with false by (symmetry; apply Nat.eqb_neq; lia). f_equal; [lia|]. rewrite <- IH.
      apply map_ext. intros k. now replace (s + S j) with (S s + j) by lia. }
  exact (G n 0 j).
Qed.
Lemma order1_le n i : Forall (fun o => o <= 1) (order1 n i).
Proof. unfold order1. rewrite Forall_map. apply Forall_forall. intros k _. destruct (k =? i); lia. Qed.
Lemma order1_length n i : length (order1 n i) = n.
Proof. unfold order1. now rewrite map_length, seq_length. Qed.

Lemma weight_pd axes : forall us ix, length us = length axes -> length ix = length axes ->
  weight (sp_basis axes us) ix = pd axes (repeat 0 (length axes)) ix us.
Proof.
  induction axes as [|a axes IH]; intros [|u us] [|i ix] L1 L2; cbn in *; try lia; auto.
  change (map _ (combine axes us)) with (sp_basis axes us). rewrite IH by lia. reflexivity.
Qed.
Lemma basis_pd s a us : sp_weights s = None -> length us = length (sp_axes s) -> length (sp_cps s) = prodn (sp_res s) -> a < length (sp_cps s) ->
  spline_basis s a us = pd (sp_axes s) (repeat 0 (length us)) (digits (sp_res s) a) us.
Proof.
  intros W L N A. rewrite spline_basis_eq by auto. rewrite W. rewrite functional_flat by auto.
  rewrite (qsum_ext _ (fun g => (if g =? a then 1 else 0) * weight (sp_basis (sp_axes s) us) (digits (map ax_n (sp_axes s)) g))%Qc) by (intros; ring).
  rewrite delta_sum by (rewrite N in A; exact A). rewrite L. apply weight_pd; auto. unfold sp_res. rewrite length_digits. now rewrite map_length.
Qed.

(** The back end. *)
Definition exact_support (s : spline) (_ : list Qc) : list nat := seq 0 (length (sp_cps s)).
Definition exact_basis (s : spline) (os : list nat) (u : list Qc) : list Qc :=
  map (fun a => pd (sp_axes s) os (digits (sp_res s) a) u) (seq 0 (length (sp_cps s))).
Definition exact_derivative (s : spline) (os : list nat) (u : list Qc) : list Qc :=
  map (fun d => qsum (map (fun a => pd (sp_axes s) os (digits (sp_res s) a) u * nth d (nth a (sp_cps s) []) 0)%Qc (seq 0 (length (sp_cps s))))) (seq 0 (dim_of s)).
Definition exact_jacobian (s : spline) (u : list Qc) : list (list Qc) :=
  table (dim_of s) (length u) (fun d i => nth d (exact_derivative s (order1 (length u) i) u) 0%Qc).
Definition is_some {A} (o : option A) : bool := match o with Some _ => true | None => false end.
Definition unit_vector (n j : nat) : list Qc := map (fun i => if i =? j then 1%Qc else 0%Qc) (seq 0 n).
Definition gauss_inv (a : list (list Qc)) : option (list (list Qc)) :=
  let n := length a in
  let col j := solve a (seq 0 n) (unit_vector n j) in
  if forallb (fun j => is_some (col j)) (seq 0 n)
  then Some (table n n (fun i j => match col j with Some x => nth i x 0%Qc | None => 0%Qc end)) else None.
Definition exact_backend : backend := Backend exact_support exact_basis exact_derivative exact_jacobian gauss_inv.

Lemma exact_basis_right s u : sp_weights s = None -> length (sp_cps s) = prodn (sp_res s) -> Forall ax_wf (sp_axes s) -> Forall2 ax_inside (sp_axes s) u ->
  basis_right (exact_support s) (exact_basis s) s u.
Proof.
  intros W N WF I. pose proof (Forall2_len _ _ _ I) as L. unfold basis_right, exact_support. rewrite seq_length.
  assert (LD : forall a, length (digits (sp_res s) a) = length (sp_axes s)) by (intros; rewrite length_digits; unfold sp_res; now rewrite map_length).
  split; [apply seq_NoDup|]. split; [intros a Ha; apply in_seq in Ha; lia|]. split.
  - destruct (all_inside_open _ _ I) as (r & R & E). exists r. split; auto. intros w Nw. split; auto. split.
    + intros a Ha C. exfalso. apply C. apply in_seq. lia.
    + intros k Hk. rewrite seq_nth by auto. cbn [plus]. pose proof (near_length _ _ _ Nw) as Lw.
      pose proof (pd_total (sp_axes s) (repeat 0 (length u)) (digits (sp_res s) k) w WF (E w Nw) ltac:(now rewrite repeat_length) (LD k)) as T.
      assert (Z : Forall (fun o => o <= 1) (repeat 0 (length u))) by (apply Forall_forall; intros x Hx; apply repeat_spec in Hx; lia).
      specialize (T Z). revert T. apply total_ext.
      * apply always. intros v Lv. rewrite basis_pd by (auto; lia). now rewrite Lv, Lw.
      * intros j Hj. unfold exact_basis. rewrite nth_map_seq by auto. now rewrite bump_order1.
  - intros k i Hk Hi.
    pose proof (pd_total (sp_axes s) (order1 (length u) i) (digits (sp_res s) k) u WF I ltac:(now rewrite order1_length) (LD k) (order1_le _ _)) as T.
    revert T. apply total_ext.
    + apply always. intros v _. unfold exact_basis. now rewrite nth_map_seq.
    + intros j Hj. unfold exact_basis. rewrite nth_map_seq by auto. now rewrite bump_order2.
Qed.
Lemma exact_derivative_nth s os u d : d < dim_of s -> nth d (exact_derivative s os u) 0%Qc =
  qsum (map (fun a => pd (sp_axes s) os (digits (sp_res s) a) u * nth d (nth a (sp_cps s) []) 0)%Qc (seq 0 (length (sp_cps s)))).
Proof. intros H. unfold exact_derivative. now rewrite nth_map_seq. Qed.
Lemma sum_pd_total s os u d : length os = length u -> Forall ax_wf (sp_axes s) -> Forall2 ax_inside (sp_axes s) u -> Forall (fun o => o <= 1) os ->
  total (fun w => qsum (map (fun a => pd (sp_axes s) os (digits (sp_res s) a) w * nth d (nth a (sp_cps s) []) 0)%Qc (seq 0 (length (sp_cps s))))) u
   (fun j => qsum (map (fun a => pd (sp_axes s) (bump j os) (digits (sp_res s) a) u * nth d (nth a (sp_cps s) []) 0)%Qc (seq 0 (length (sp_cps s))))).
Proof.
  intros Lo WF I Ho. pose proof (Forall2_len _ _ _ I) as L.
  apply total_sum with (f := fun a w => (pd (sp_axes s) os (digits (sp_res s) a) w * nth d (nth a (sp_cps s) []) 0)%Qc)
    (D := fun a j => (pd (sp_axes s) (bump j os) (digits (sp_res s) a) u * nth d (nth a (sp_cps s) []) 0)%Qc).
  intros a _. set (c := nth d (nth a (sp_cps s) []) 0%Qc).
  apply (total_ext (fun w => c * pd (sp_axes s) os (digits (sp_res s) a) w)%Qc _ u (fun j => c * pd (sp_axes s) (bump j os) (digits (sp_res s) a) u)%Qc).
  - apply always. intros; ring.
  - intros; ring.
  - apply total_scale. apply pd_total; auto; [lia|]. rewrite length_digits. unfold sp_res. now rewrite map_length.
Qed.
Lemma exact_geometry_right s u : sp_weights s = None -> length (sp_cps s) = prodn (sp_res s) -> Forall ax_wf (sp_axes s) -> Forall2 ax_inside (sp_axes s) u ->
  dim_of s = length u -> geometry_right (exact_jacobian s) (exact_derivative s) s u.
Proof.
  intros W N WF I Dm. pose proof (Forall2_len _ _ _ I) as L. unfold geometry_right.
  split; [unfold exact_jacobian, table; rewrite map_length, seq_length; auto|]. split.
  - destruct (all_inside_open _ _ I) as (r & R & E). exists r. split; auto. intros w Nw d Hd. pose proof (near_length _ _ _ Nw) as Lw.
    pose proof (sum_pd_total s (repeat 0 (length w)) w d ltac:(now rewrite repeat_length) WF (E w Nw)) as T.
    assert (Z : Forall (fun o => o <= 1) (repeat 0 (length w))) by (apply Forall_forall; intros x Hx; apply repeat_spec in Hx; lia).
    specialize (T Z). revert T. apply total_ext.
    + apply always. intros v Lv. unfold coordinate. rewrite value_sum by (auto; lia). apply qsum_ext. intros a Ha. apply in_seq in Ha.
      rewrite basis_pd by (auto; lia). now rewrite Lv.
    + intros j Hj. unfold exact_jacobian. rewrite entry_table by lia. rewrite exact_derivative_nth by lia. now rewrite bump_order1.
  - intros d i Hd Hi.
    pose proof (sum_pd_total s (order1 (length u) i) u d (order1_length _ _) WF I (order1_le _ _)) as T.
    revert T. apply total_ext.
    + apply always. intros v Lv. unfold exact_jacobian. rewrite entry_table by lia. rewrite exact_derivative_nth by lia. now rewrite Lv.
    + intros j Hj. rewrite exact_derivative_nth by lia. now rewrite bump_order2.
Qed.

Lemma gauss_inverting n : inverting n gauss_inv.
Proof.
  intros a L (b & Hb).
  assert (NS : ~ singular a).
  { intros (v & [Lv Sv] & k & Hk & C). apply C. rewrite L in *.
    transitivity (qsum (map (fun i => (if i =? k then 1 else 0) * nth i v 0)%Qc (seq 0 n))); [symmetry; now apply (delta_sum (fun i => nth i v 0%Qc))|].
    transitivity (qsum (map (fun i => qsum (map (fun j => entry b k j * (entry a j i * nth i v 0))%Qc (seq 0 n))) (seq 0 n))).
    { apply qsum_ext. intros i Hi. apply in_seq in Hi. destruct (Hb k i) as [_ E]; [lia|lia|]. rewrite Nat.eqb_sym. rewrite <- E. rewrite <- qsum_map_mul_r. apply qsum_ext. intros; ring. }
    rewrite qsum_swap. apply qsum_zero. intros j Hj. apply in_seq in Hj. rewrite qsum_map_mul_l.
    specialize (Sv j ltac:(lia)). unfold row_times in Sv. rewrite L in Sv. rewrite Sv. rewrite nth_nil. ring. }
  set (col := fun j => solve a (seq 0 n) (unit_vector n j)).
  assert (C : forall j, exists x, col j = Some x /\ solves a (unit_vector n j) x).
  { intros j. apply solve_regular; auto. rewrite L. apply Permutation_refl. }
  unfold gauss_inv. rewrite L. fold col.
  assert (F : forallb (fun j => is_some (col j)) (seq 0 n) = true).
  { apply forallb_forall. intros j _. destruct (C j) as (x & -> & _). reflexivity. }
  unfold col in F. rewrite F.
  set (c := fun i j => match col j with Some x => nth i x 0%Qc | None => 0%Qc end).
  exists (table n n c). split; [reflexivity|].
  assert (AC : forall i j, i < n -> j < n -> qsum (map (fun k => entry a i k * c k j)%Qc (seq 0 n)) = (if i =? j then 1 else 0)%Qc).
  { intros i j Hi Hj. unfold c. destruct (C j) as (x & -> & [Lx Sx]). rewrite L in Sx. specialize (Sx i Hi). unfold row_times in Sx. rewrite L in Sx. rewrite Sx.
    unfold unit_vector. now rewrite nth_map_seq. }
  assert (CB : forall i j, i < n -> j < n -> c i j = entry b i j).
  { intros i j Hi Hj.
    transitivity (qsum (map (fun k => (if k =? i then 1 else 0) * c k j)%Qc (seq 0 n))); [symmetry; now apply (delta_sum (fun k => c k j))|].
    transitivity (qsum (map (fun k => qsum (map (fun m => entry b i m * (entry a m k * c k j))%Qc (seq 0 n))) (seq 0 n))).
    { apply qsum_ext. intros k Hk. apply in_seq in Hk. destruct (Hb i k) as [_ E]; [lia|lia|]. rewrite Nat.eqb_sym. rewrite <- E. rewrite <- qsum_map_mul_r. apply qsum_ext. intros; ring. }
    rewrite qsum_swap.
    transitivity (qsum (map (fun m => (if m =? j then 1 else 0) * entry b i m)%Qc (seq 0 n))); [|now apply (delta_sum (fun m => entry b i m))].
    apply qsum_ext. intros m Hm. apply in_seq in Hm. rewrite qsum_map_mul_l. rewrite AC by lia. ring. }
  intros i j Hi Hj. destruct (Hb i j Hi Hj) as [E1 E2]. split; [rewrite <- E1|rewrite <- E2]; apply qsum_ext; intros k Hk; apply in_seq in Hk;
    rewrite entry_table by lia; rewrite CB by lia; reflexivity.
Qed.
