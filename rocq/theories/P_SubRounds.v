(** Proofs for extracted parts of splines: inserting the knots. *)
From Coq Require Import List Arith ZArith Bool QArith Qcanon Lia Sorted.
From Verif Require Import Base BaseRadix BaseQc S_Grid S_Spline S_Value P_Spline P_Value M_Numpy M_Core M_Create S_Core S_Files S_Create S_SubSpline M_SubSpline P_SubSpline.
Import ListNotations.
Local Open Scope list_scope.
Local Open Scope nat_scope.

Lemma clamped_domain p kv a b u : shape p a b kv -> (ax_domain (KnotAxis p kv) u <-> (a <= u /\ u <= b)%Qc).
Proof. intros H. destruct (shape_wf p a b kv H) as (_ & _ & L & U). unfold ax_domain. now rewrite L, U. Qed.
Lemma nth_middle_error {A} (l1 : list A) x l2 k : length l1 = k -> nth_error (l1 ++ x :: l2) k = Some x.
Proof. intros <-. rewrite nth_error_app2, Nat.sub_diag by lia. reflexivity. Qed.
Lemma firstn_len_nth {A} (l : list A) k x : nth_error l k = Some x -> length (firstn k l) = k.
Proof. intros H. assert (k < length l) by (apply nth_error_Some; congruence). rewrite firstn_length. lia. Qed.

Section Rounds.
Variables (limit dim : nat) (tol : Qc) (ins : spline -> nat -> Qc -> spline) (s0 : spline) (k p : nat) (kv0 : list Qc) (a b : Qc) (plane : list Qc).
Hypothesis T : (0 < tol)%Qc.
Hypothesis RM : raises_multiplicity tol ins.
Hypothesis So : sound limit dim s0.
Hypothesis Ek : nth_error (sp_axes s0) k = Some (KnotAxis p kv0).
Hypothesis Hp : 1 <= p.
Hypothesis Sh : shape p a b kv0.
Hypothesis Hk : has_kvs s0 = true.
Hypothesis Pin : Forall (fun x => a <= x /\ x <= b)%Qc plane.
Hypothesis Pclear : Forall (clear_of tol kv0) plane.
Hypothesis Papart : forall x y, In x plane -> In y plane -> y = x \/ (tol <= qabs (y - x))%Qc.
Hypothesis Ptimes : Forall (fun x => times x kv0 <= p + 1) plane.

Record inv (c : spline) (kv : list Qc) : Prop := Inv {
  i_sound : sound limit dim c;
  i_axes : sp_axes c = firstn k (sp_axes s0) ++ KnotAxis p kv :: skipn (S k) (sp_axes s0);
  i_kind : sp_weights c = None <-> sp_weights s0 = None;
  i_value : forall us d, sp_domain s0 us -> d < dim -> sp_value c us d = sp_value s0 us d;
  i_shape : shape p a b kv;
  i_from : forall y, In y kv -> In y kv0 \/ In y plane;
  i_times : Forall (fun x => times x kv <= p + 1) plane }.

Lemma split_axes : sp_axes s0 = firstn k (sp_axes s0) ++ KnotAxis p kv0 :: skipn (S k) (sp_axes s0).
Proof. clear - Ek. revert k Ek. induction (sp_axes s0) as [|x l IH]; intros [|n] H; cbn in *; try easy; [now injection H as ->|]. f_equal. now apply IH. Qed.
Lemma inv_start : inv s0 kv0.
Proof. constructor; auto. - apply split_axes. - easy. Qed.
Lemma inv_nth c kv : inv c kv -> nth_error (sp_axes c) k = Some (KnotAxis p kv).
Proof. intros I. rewrite (i_axes _ _ I). apply nth_middle_error. exact (firstn_len_nth _ _ _ Ek). Qed.
Lemma inv_kvs c kv : inv c kv -> has_kvs c = true.
Proof.
  intros I. unfold has_kvs in *. rewrite (i_axes _ _ I). destruct (sp_axes s0) as [|x l]; [easy|]. destruct k; cbn; auto.
Qed.
Lemma inv_domain c kv us : inv c kv -> sp_domain s0 us -> sp_domain c us.
Proof.
  intros I D. unfold sp_domain in *. rewrite (i_axes _ _ I). rewrite split_axes in D.
  apply Forall2_app_inv_l in D as (v1 & v2 & D1 & D2 & ->). inversion D2 as [|? u ? v3 H D3]; subst.
  apply Forall2_app; auto. constructor; auto. apply (clamped_domain p kv a b u (i_shape _ _ I)). now apply (clamped_domain p kv0 a b u Sh).
Qed.
Lemma inv_clear c kv x : inv c kv -> In x plane -> clear_of tol kv x.
Proof.
  intros I X y Y. destruct (i_from _ _ I y Y) as [H|H]; [|now apply Papart].
  rewrite Forall_forall in Pclear. now apply Pclear.
Qed.

Lemma step c kv x : inv c kv -> In x plane -> exists kv', inv (ins c k x) kv' /\ (forall y, times y kv <= times y kv') /\
  Nat.min (p + 1) (times x kv + 1) <= times x kv'.
Proof.
  intros I X. destruct (shape_wf p a b kv (i_shape _ _ I)) as (W & C & Lo & Up).
  destruct (RM limit dim c k p kv x (i_sound _ _ I) (inv_nth c kv I) Hp C (inv_kvs c kv I) (inv_clear c kv x I X)) as [R1 R2].
  rewrite Lo, Up in R2.
  assert (times x kv <= p + 1) as B. { pose proof (i_times _ _ I) as F. rewrite Forall_forall in F. now apply F. }
  destruct (Nat.eq_dec (times x kv) (p + 1)) as [E|E].
  { rewrite (R1 E). exists kv. split; [exact I|]. split; [auto|lia]. }
  assert (a < x /\ x < b)%Qc as [A1 B1].
  { rewrite Forall_forall in Pin. destruct (Pin x X) as [A B']. split.
    - apply Qcle_lt_or_eq in A as [A|A]; auto. exfalso. subst x. apply E, (sh_low _ _ _ _ (i_shape _ _ I)).
    - apply Qcle_lt_or_eq in B' as [B'|B']; auto. exfalso. subst x. apply E, (sh_high _ _ _ _ (i_shape _ _ I)). }
  destruct (R2 ltac:(lia) A1 B1) as (l1 & l2 & Ekv & F1 & F2 & Ea & Sd & Kd & V). clear R1 R2.
  assert (forall y, times y (l1 ++ x :: l2) = (if Qc_eq_dec x y then 1 else 0) + times y kv) as Tm.
  { intros y. rewrite Ekv, !times_app, times_cons. lia. }
  exists (l1 ++ x :: l2). split; [|split].
  - constructor; auto.
    + rewrite Ea, (i_axes _ _ I). pose proof (firstn_len_nth _ _ _ Ek) as Lk. f_equal.
      * rewrite firstn_app, Lk, Nat.sub_diag, firstn_O, app_nil_r. apply firstn_all2. lia.
      * f_equal. rewrite skipn_app, Lk. replace (S k - k) with 1 by lia. rewrite skipn_all2 by lia. reflexivity.
    + now rewrite Kd, (i_kind _ _ I).
    + intros us d D Hd. rewrite V; auto; [now apply (i_value _ _ I)|exact (inv_domain c kv us I D)].
    + apply shape_insert; auto. rewrite <- Ekv. apply (i_shape _ _ I).
    + intros y Hy. rewrite in_app_iff in Hy. cbn [In] in Hy. destruct (Qc_eq_dec x y) as [<-|N]; auto.
      apply (i_from _ _ I). rewrite Ekv, in_app_iff. intuition congruence.
    + pose proof (i_times _ _ I) as F. rewrite Forall_forall in *. intros y Hy. rewrite Tm. destruct (Qc_eq_dec x y) as [<-|N]; [lia|]. apply F. auto.
  - intros y. rewrite Tm. lia.
  - rewrite Tm. destruct (Qc_eq_dec x x); [|congruence]. lia.
Qed.

Lemma steps xs : incl xs plane -> forall c kv, inv c kv -> exists kv', inv (fold_left (fun s x => ins s k x) xs c) kv' /\
  (forall y, times y kv <= times y kv') /\ forall x, In x xs -> Nat.min (p + 1) (times x kv + 1) <= times x kv'.
Proof.
  induction xs as [|x xs IH]; intros H c kv I; cbn [fold_left]; [exists kv; split; [exact I|split; [auto|easy]]|].
  destruct (step c kv x I (H x (or_introl eq_refl))) as (kv1 & I1 & M1 & X1).
  destruct (IH (fun y Y => H y (or_intror Y)) _ _ I1) as (kv2 & I2 & M2 & X2).
  exists kv2. split; auto. split; [intros y; specialize (M1 y); specialize (M2 y); lia|].
  intros y [<-|Y]; [specialize (M2 x); lia|]. specialize (X2 y Y). specialize (M1 y). lia.
Qed.

Lemma one_round c kv : inv c kv -> exists c' kv', insert_knots ins c k plane = Some c' /\ inv c' kv' /\
  forall x, In x plane -> Nat.min (p + 1) (times x kv + 1) <= times x kv'.
Proof.
  intros I. destruct (steps plane (incl_refl _) c kv I) as (kv' & I' & _ & X). unfold insert_knots. rewrite (inv_nth c kv I). cbn [ax_kv].
  replace (forallb _ plane) with true; [exists (fold_left (fun s x => ins s k x) plane c), kv'; auto|]. symmetry. apply forallb_forall. intros x Hx.
  rewrite Forall_forall in Pin. destruct (Pin x Hx) as [A B]. pose proof (i_shape _ _ I) as Sh'.
  apply andb_true_intro. split; apply existsb_exists.
  - exists b. split; [apply times_in; rewrite (sh_high _ _ _ _ Sh'); lia|]. destruct (qleb_spec x b); auto.
  - exists a. split; [apply times_in; rewrite (sh_low _ _ _ _ Sh'); lia|]. destruct (qleb_spec a x); auto.
Qed.
Lemma rounds n : forall c kv, inv c kv -> exists c' kv', insert_rounds ins n k plane c = Some c' /\ inv c' kv' /\
  forall x, In x plane -> Nat.min (p + 1) (times x kv + n) <= times x kv'.
Proof.
  induction n as [|n IH]; intros c kv I; cbn [insert_rounds].
  - exists c, kv. split; [auto|]. split; [exact I|]. intros. lia.
  - destruct (one_round c kv I) as (c1 & kv1 & -> & I1 & X1). destruct (IH c1 kv1 I1) as (c2 & kv2 & E2 & I2 & X2).
    exists c2, kv2. split; [auto|]. split; [exact I2|]. intros x Hx. specialize (X1 x Hx). specialize (X2 x Hx). lia.
Qed.
Lemma all_rounds : exists c kv, insert_rounds ins (p + 1) k plane s0 = Some c /\ inv c kv /\ forall x, In x plane -> times x kv = p + 1.
Proof.
  destruct (rounds (p + 1) s0 kv0 inv_start) as (c & kv & E & I & X). exists c, kv. split; [auto|]. split; [exact I|].
  intros x Hx. specialize (X x Hx). pose proof (i_times _ _ I) as F. rewrite Forall_forall in F. specialize (F x Hx). cbn in F. lia.
Qed.

(** The window of the extracted knots. *)
Lemma found c kv x : inv c kv -> In x plane -> times x kv = p + 1 -> exists l1 l2, kv = l1 ++ repeat x (p + 1) ++ l2 /\
  Forall (fun y => y < x)%Qc l1 /\ Forall (fun y => x < y)%Qc l2 /\ last_near tol kv x = Some (length l1 + p).
Proof.
  intros I X E. destruct (sorted_parts x kv (sh_sorted _ _ _ _ (i_shape _ _ I))) as (l1 & l2 & D & F1 & F2). rewrite E in D.
  exists l1, l2. repeat split; auto. pose proof (inv_clear c kv x I X) as Cl. rewrite D in *. replace (p + 1) with (S p) in * by lia.
  now apply last_near_at.
Qed.
End Rounds.

(** Two values cut a sorted list into three pieces. *)
Lemma three_parts p a b kv x0 x1 : shape p a b kv -> (x0 < x1)%Qc -> times x0 kv = p + 1 -> times x1 kv = p + 1 ->
  exists l1 m l2, kv = l1 ++ (repeat x0 (p + 1) ++ m ++ repeat x1 (p + 1)) ++ l2 /\
    shape p x0 x1 (repeat x0 (p + 1) ++ m ++ repeat x1 (p + 1)) /\
    Forall (fun y => y < x0)%Qc l1 /\ Forall (fun y => x0 < y /\ y < x1)%Qc m /\ Forall (fun y => x1 < y)%Qc l2.
Proof.
  intros H X E0 E1. pose proof (sh_sorted _ _ _ _ H) as HS. destruct (sorted_parts x0 kv HS) as (l1 & r & D & F1 & F2). rewrite E0 in D.
  assert (forall l l', StronglySorted Qcle (l ++ l') -> StronglySorted Qcle l') as Tail. { clear. induction l; auto. intros l' H. cbn in H. inversion H; auto. }
  assert (forall l l', StronglySorted Qcle (l ++ l') -> StronglySorted Qcle l) as Init.
  { clear. induction l as [|y l IH]; intros l' H; constructor; inversion H; subst; eauto. apply Forall_app in H3. tauto. }
  assert (StronglySorted Qcle r) as Sr. { rewrite D in HS. now apply Tail, Tail in HS. }
  assert (times x1 r = p + 1) as Er.
  { rewrite <- E1, D, !times_app, (times_none x1 l1), (times_none x1 (repeat _ _)); [lia| |].
    - intros I. apply repeat_spec in I. subst. qlra.
    - intros I. rewrite Forall_forall in F1. specialize (F1 _ I). qlra. }
  destruct (sorted_parts x1 r Sr) as (m & l2 & D2 & F3 & F4). rewrite Er in D2.
  assert (Forall (fun y => x0 < y /\ y < x1)%Qc m) as Fm.
  { rewrite Forall_forall in *. intros y I. split; [apply F2; rewrite D2; apply in_app_iff; auto|auto]. }
  assert (kv = l1 ++ (repeat x0 (p + 1) ++ m ++ repeat x1 (p + 1)) ++ l2) as Ekv by (rewrite D, D2, <- !app_assoc; reflexivity).
  exists l1, m, l2. split; [exact Ekv|]. split; [|auto]. constructor; auto.
  - rewrite Ekv in HS. now apply Tail, Init in HS.
  - rewrite !times_app, times_repeat, !times_none; [lia| |]; intros I; [apply repeat_spec in I; subst; qlra|].
    rewrite Forall_forall in Fm. specialize (Fm _ I). qlra.
  - rewrite !times_app, times_repeat, !times_none; [lia| |]; intros I; [|apply repeat_spec in I; subst; qlra].
    rewrite Forall_forall in Fm. specialize (Fm _ I). qlra.
  - rewrite !Forall_app. repeat split; apply Forall_forall; intros y I; try (apply repeat_spec in I; subst; split; qlra).
    rewrite Forall_forall in Fm. specialize (Fm _ I). split; qlra.
Qed.
