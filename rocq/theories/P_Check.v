(** Proofs about the checks of queries and knot vectors. *)
From Coq Require Import List Arith ZArith Bool QArith Qcanon Lia.
From Verif Require Import Base BaseQc S_Grid S_Spline S_Value P_Spline P_Value M_Core M_Check S_Check.
Import ListNotations.
Local Open Scope list_scope.
Local Open Scope nat_scope.

Lemma ltb_iff x y : qltb x y = true <-> (x < y)%Qc.
Proof. destruct (qltb_spec x y); split; auto; discriminate. Qed.

(** * Best entries *)
Section Best.
Variables (better : Qc -> Qc -> bool) (ok : Qc -> Qc -> Prop).
(** [ok x y]: x is at least as good as y *)
Hypothesis ok_refl : forall x, ok x x.
Hypothesis ok_trans : forall x y z, ok x y -> ok y z -> ok x z.
Hypothesis better_spec : forall x y, better x y = true -> ok x y.
Hypothesis worse_spec : forall x y, better x y = false -> ok y x.

Lemma best_from_spec l : forall b at_ i,
  ok (fst (best_from better b at_ i l)) b /\ (forall x, In x l -> ok (fst (best_from better b at_ i l)) x) /\
  (best_from better b at_ i l = (b, at_) \/
   exists j, j < length l /\ snd (best_from better b at_ i l) = i + j /\ nth_error l j = Some (fst (best_from better b at_ i l))).
Proof.
  induction l as [|x l IH]; intros b at_ i; cbn [best_from].
  - split; [apply ok_refl|]. split; [easy|now left].
  - destruct (better x b) eqn:E.
    + destruct (IH x i (S i)) as (H1 & H2 & H3). split; [|split].
      * eauto.
      * intros y [<-|Hy]; auto.
      * right. destruct H3 as [H3|(j & Hj & H3 & H4)].
        -- exists 0. rewrite H3. cbn. repeat split; lia.
        -- exists (S j). cbn. repeat split; [lia|lia|auto].
    + destruct (IH b at_ (S i)) as (H1 & H2 & H3). split; [|split].
      * auto.
      * intros y [<-|Hy]; eauto.
      * destruct H3 as [H3|(j & Hj & H3 & H4)]; [now left|]. right. exists (S j). cbn. repeat split; [lia|lia|auto].
Qed.
Lemma best_spec l : l <> [] ->
  (forall x, In x l -> ok (fst (best better l)) x) /\ nth_error l (snd (best better l)) = Some (fst (best better l)).
Proof.
  destruct l as [|x l]; [easy|]. intros _. cbn [best].
  destruct (best_from_spec l x 0 1) as (H1 & H2 & H3). split.
  - intros y [<-|Hy]; auto.
  - destruct H3 as [-> | (j & Hj & -> & H4)]; [reflexivity|]. cbn. exact H4.
Qed.
End Best.

Lemma lowest_spec q d : t_rows q <> [] ->
  (forall x, In x (column q d) -> (fst (lowest q d) <= x)%Qc) /\ nth_error (column q d) (snd (lowest q d)) = Some (fst (lowest q d)).
Proof.
  intros H. unfold lowest. apply (best_spec qltb Qcle).
  - apply Qcle_refl.
  - intros x y z. apply Qcle_trans.
  - intros x y E. apply ltb_iff in E. now apply Qclt_le_weak.
  - intros x y E. apply Qcnot_lt_le. intros C. apply ltb_iff in C. congruence.
  - unfold column. destruct (t_rows q); easy.
Qed.
Lemma highest_spec q d : t_rows q <> [] ->
  (forall x, In x (column q d) -> (x <= fst (highest q d))%Qc) /\ nth_error (column q d) (snd (highest q d)) = Some (fst (highest q d)).
Proof.
  intros H. unfold highest. apply (best_spec (fun x y => qltb y x) (fun x y => (y <= x)%Qc)).
  - apply Qcle_refl.
  - intros x y z A B. now apply Qcle_trans with y.
  - intros x y E. apply ltb_iff in E. now apply Qclt_le_weak.
  - intros x y E. apply Qcnot_lt_le. intros C. apply ltb_iff in C. congruence.
  - unfold column. destruct (t_rows q); easy.
Qed.

Lemma column_nth q d i r : nth_error (t_rows q) i = Some r -> nth_error (column q d) i = Some (nth d r 0%Qc).
Proof. intros H. unfold column. rewrite nth_error_map, H. reflexivity. Qed.
Lemma column_row q d i x : nth_error (column q d) i = Some x -> exists r, nth_error (t_rows q) i = Some r /\ x = nth d r 0%Qc.
Proof.
  unfold column. rewrite nth_error_map. destruct (nth_error (t_rows q) i) as [r|] eqn:E; [|easy].
  cbn. intros [= <-]. eauto.
Qed.

Definition rectangular (q : table) : Prop := Forall (fun r => length r = t_cols q) (t_rows q).

Lemma nth_axis {A} (f : paxis -> A) s d a x : nth_error (sp_axes s) d = Some a -> nth d (map f (sp_axes s)) x = f a.
Proof. intros H. apply nth_error_nth. rewrite nth_error_map, H. reflexivity. Qed.

(** A column entry beyond a bound, as stated in the specification. *)
Lemma extreme_row q s d i x : rectangular q -> length (sp_axes s) = t_cols q -> d < length (sp_axes s) ->
  nth_error (column q d) i = Some x ->
  exists a r, nth_error (sp_axes s) d = Some a /\ nth_error (t_rows q) i = Some r /\ nth_error r d = Some x.
Proof.
  intros R L Hd H. destruct (column_row _ _ _ _ H) as (r & Hr & ->).
  destruct (nth_error (sp_axes s) d) as [a|] eqn:Ha; [|apply nth_error_None in Ha; lia].
  exists a, r. repeat split; auto. apply nth_error_nth'.
  pose proof (proj1 (Forall_forall _ _) R r (nth_error_In _ _ Hr)) as Q. cbn in Q. lia.
Qed.
Lemma lowest_under q s d : rectangular q -> length (sp_axes s) = t_cols q -> d < length (sp_axes s) -> t_rows q <> [] ->
  (fst (lowest q d) < nth d (map ax_lower (sp_axes s)) 0)%Qc <-> undercuts s (t_rows q) d (snd (lowest q d)).
Proof.
  intros R L Hd N. destruct (lowest_spec q d N) as [_ H].
  destruct (extreme_row q s d _ _ R L Hd H) as (a & r & Ha & Hr & Hu).
  rewrite (nth_axis _ _ _ _ _ Ha). split.
  - intros C. exists a, r, (fst (lowest q d)). auto.
  - intros (a' & r' & u & Ha' & Hr' & Hu' & C). congruence.
Qed.
Lemma highest_over q s d : rectangular q -> length (sp_axes s) = t_cols q -> d < length (sp_axes s) -> t_rows q <> [] ->
  (nth d (map ax_upper (sp_axes s)) 0 < fst (highest q d))%Qc <-> exceeds s (t_rows q) d (snd (highest q d)).
Proof.
  intros R L Hd N. destruct (highest_spec q d N) as [_ H].
  destruct (extreme_row q s d _ _ R L Hd H) as (a & r & Ha & Hr & Hu).
  rewrite (nth_axis _ _ _ _ _ Ha). split.
  - intros C. exists a, r, (fst (highest q d)). auto.
  - intros (a' & r' & u & Ha' & Hr' & Hu' & C). congruence.
Qed.
(** Any row beyond a bound makes the extreme row one. *)
Lemma under_lowest q s d i : t_rows q <> [] ->
  undercuts s (t_rows q) d i -> (fst (lowest q d) < nth d (map ax_lower (sp_axes s)) 0)%Qc.
Proof.
  intros N (a & r & u & Ha & Hr & Hu & C). rewrite (nth_axis _ _ _ _ _ Ha).
  apply Qcle_lt_trans with u; auto. apply (proj1 (lowest_spec q d N)).
  apply (nth_error_In _ i). rewrite (column_nth _ _ _ _ Hr). f_equal. now apply nth_error_nth.
Qed.
Lemma over_highest q s d i : t_rows q <> [] ->
  exceeds s (t_rows q) d i -> (nth d (map ax_upper (sp_axes s)) 0 < fst (highest q d))%Qc.
Proof.
  intros N (a & r & u & Ha & Hr & Hu & C). rewrite (nth_axis _ _ _ _ _ Ha).
  apply Qclt_le_trans with u; auto. apply (proj1 (highest_spec q d N)).
  apply (nth_error_In _ i). rewrite (column_nth _ _ _ _ Hr). f_equal. now apply nth_error_nth.
Qed.

Lemma domain_rows s q : rectangular q -> length (sp_axes s) = t_cols q ->
  Forall (sp_domain s) (t_rows q) <-> (forall d i, ~ undercuts s (t_rows q) d i) /\ (forall d i, ~ exceeds s (t_rows q) d i).
Proof.
  intros R L. split.
  - intros F. split; intros d i (a & r & u & Ha & Hr & Hu & C);
      pose proof (proj1 (Forall_forall _ _) F r (nth_error_In _ _ Hr)) as D;
      unfold sp_domain in D; clear - Ha Hu C D;
      revert d Ha Hu; induction D as [|a' u' axes us [D1 D2] D IH]; intros [|d] Ha Hu; try discriminate; cbn in Ha, Hu; eauto.
    + injection Ha as ->. injection Hu as ->. now apply (Qclt_not_le _ _ C).
    + injection Ha as ->. injection Hu as ->. now apply (Qclt_not_le _ _ C).
  - intros [H1 H2]. apply Forall_forall. intros r Hr.
    destruct (In_nth_error _ _ Hr) as [i Hi].
    pose proof (proj1 (Forall_forall _ _) R r Hr) as Q. cbn in Q. rewrite <- L in Q.
    assert (G : forall d a u, nth_error (sp_axes s) d = Some a -> nth_error r d = Some u -> ax_domain a u).
    { intros d a u Ha Hu. split; apply Qcnot_lt_le; intros C.
      - apply (H1 d i). exists a, r, u. auto.
      - apply (H2 d i). exists a, r, u. auto. }
    unfold sp_domain. clear - G Q. revert r Q G. induction (sp_axes s) as [|a axes IH]; intros [|u r] Q G; try discriminate; constructor.
    + apply (G 0); auto.
    + apply IH; [now injection Q|]. intros d. apply (G (S d)).
Qed.

Lemma undercut_dim s rows d i : undercuts s rows d i -> d < length (sp_axes s).
Proof. intros (a & r & u & Ha & _). apply nth_error_Some. congruence. Qed.
Lemma exceed_dim s rows d i : exceeds s rows d i -> d < length (sp_axes s).
Proof. intros (a & r & u & Ha & _). apply nth_error_Some. congruence. Qed.

Lemma where_first f n d l : where_ f n = d :: l -> f d = true /\ d < n /\ forall e, e < d -> f e = false.
Proof.
  unfold where_. intros E.
  assert (H : In d (filter f (seq 0 n))) by (rewrite E; now left).
  apply filter_In in H as [H1 H2]. apply in_seq in H1. repeat split; auto; [lia|].
  intros e He. destruct (f e) eqn:F; auto. exfalso.
  assert (I : In e (filter f (seq 0 n))) by (apply filter_In; split; auto; apply in_seq; lia).
  rewrite E in I.
  assert (S0 : forall m k x xs, filter f (seq k m) = x :: xs -> forall y, In y (x :: xs) -> x <= y).
  { clear. intros m. induction m as [|m IH]; intros k x xs E y Hy; [discriminate|]. cbn [seq filter] in E.
    destruct (f k).
    - injection E as <- <-. destruct Hy as [<-|Hy]; [lia|]. apply filter_In in Hy as [Hy _]. apply in_seq in Hy. lia.
    - eapply IH; eauto. }
  specialize (S0 n 0 d l E e I). lia.
Qed.

(** * Results of valid_queries *)
Section Queries.
Variables (s : spline) (q : table).
Hypothesis R : rectangular q.

Lemma valid_iff : t_rows q <> [] ->
  valid_queries s q = Valid <-> t_cols q = length (sp_axes s) /\ Forall (sp_domain s) (t_rows q).
Proof.
  intros N. unfold valid_queries.
  destruct (Nat.eqb_spec (length (sp_axes s)) (t_cols q)) as [L|L]; cbn [negb]; [|split; [easy|intros [C _]; congruence]].
  destruct (Nat.eqb_spec (length (t_rows q)) 0) as [Z|_]; [now destruct (t_rows q)|].
  rewrite (domain_rows s q R L).
  destruct (existsb (fun d => qltb (fst (lowest q d)) _) _) eqn:E1.
  - split.
    + destruct (where_ _ _); discriminate.
    + intros (_ & H & _). exfalso. apply existsb_exists in E1 as (d & Hd & E1). apply in_seq in Hd. apply ltb_iff in E1.
      apply (lowest_under q s d R L) in E1; [|lia|auto]. exact (H _ _ E1).
  - assert (U : forall d i, ~ undercuts s (t_rows q) d i).
    { intros d i C. pose proof (undercut_dim _ _ _ _ C) as Hd. apply (under_lowest q s d i N) in C.
      apply ltb_iff in C. apply (proj2 (not_true_iff_false _) E1). apply existsb_exists. exists d. split; auto. apply in_seq. lia. }
    destruct (existsb (fun d => qltb _ (fst (highest q d))) _) eqn:E2.
    + split.
      * destruct (where_ _ _); discriminate.
      * intros (_ & _ & H). exfalso. apply existsb_exists in E2 as (d & Hd & E2). apply in_seq in Hd. apply ltb_iff in E2.
        apply (highest_over q s d R L) in E2; [|lia|auto]. exact (H _ _ E2).
    + split; [|reflexivity]. intros _. split; [congruence|]. split; auto.
      intros d i C. pose proof (exceed_dim _ _ _ _ C) as Hd. apply (over_highest q s d i N) in C.
      apply ltb_iff in C. apply (proj2 (not_true_iff_false _) E2). apply existsb_exists. exists d. split; auto. apply in_seq. lia.
Qed.

Lemma above_right d i : valid_queries s q = Above d i ->
  exceeds s (t_rows q) d i /\ (forall e j, e < d -> ~ exceeds s (t_rows q) e j) /\
  (forall e j, ~ undercuts s (t_rows q) e j).
Proof.
  unfold valid_queries.
  destruct (Nat.eqb_spec (length (sp_axes s)) (t_cols q)) as [L|L]; cbn [negb]; [|easy].
  destruct (Nat.eqb_spec (length (t_rows q)) 0) as [Z|Z]; [easy|].
  assert (N : t_rows q <> []) by (intros C; now rewrite C in Z).
  destruct (existsb (fun d => qltb (fst (lowest q d)) _) _) eqn:E1; [destruct (where_ _ _); discriminate|].
  destruct (existsb (fun d => qltb _ (fst (highest q d))) _) eqn:E2; [|discriminate].
  destruct (where_ _ _) as [|e l] eqn:W; [discriminate|]. intros [= <- <-].
  apply where_first in W as (W1 & W2 & W3). apply ltb_iff in W1.
  split; [|split].
  - now apply (highest_over q s e R L W2 N).
  - intros e' j He' C. apply (over_highest q s e' j N) in C. apply ltb_iff in C. rewrite (W3 e' He') in C. discriminate.
  - intros e' j C. pose proof (undercut_dim _ _ _ _ C) as Hd. apply (under_lowest q s e' j N) in C.
    apply ltb_iff in C. apply (proj2 (not_true_iff_false _) E1). apply existsb_exists. exists e'. split; auto. apply in_seq. lia.
Qed.

(** Lower violations: the report is right for curves; in general some row is too low. *)
Lemma below_some d i : valid_queries s q = Below d i -> exists e j, undercuts s (t_rows q) e j.
Proof.
  unfold valid_queries.
  destruct (Nat.eqb_spec (length (sp_axes s)) (t_cols q)) as [L|L]; cbn [negb]; [|easy].
  destruct (Nat.eqb_spec (length (t_rows q)) 0) as [Z|Z]; [easy|].
  assert (N : t_rows q <> []) by (intros C; now rewrite C in Z).
  destruct (existsb (fun d => qltb (fst (lowest q d)) _) _) eqn:E1.
  - intros _. apply existsb_exists in E1 as (e & He & E1). apply in_seq in He. apply ltb_iff in E1.
    exists e, (snd (lowest q e)). apply (lowest_under q s e R L); auto. lia.
  - destruct (existsb (fun d => qltb _ (fst (highest q d))) _); [destruct (where_ _ _)|]; discriminate.
Qed.
Lemma below_curve d i : length (sp_axes s) = 1 -> valid_queries s q = Below d i -> undercuts s (t_rows q) d i.
Proof.
  unfold valid_queries. intros D.
  destruct (Nat.eqb_spec (length (sp_axes s)) (t_cols q)) as [L|L]; cbn [negb]; [|easy].
  destruct (Nat.eqb_spec (length (t_rows q)) 0) as [Z|Z]; [easy|].
  assert (N : t_rows q <> []) by (intros C; now rewrite C in Z).
  destruct (existsb (fun d => qltb (fst (lowest q d)) _) _) eqn:E1.
  - destruct (where_ _ _) as [|e l] eqn:W; [discriminate|]. intros [= <- <-].
    apply where_first in W as (_ & W2 & _).
    apply existsb_exists in E1 as (e' & He & E1). apply in_seq in He. apply ltb_iff in E1.
    assert (e = 0) by lia. assert (e' = 0) by lia. rewrite H. rewrite H0 in E1.
    apply (lowest_under q s 0 R L); auto. lia.
  - destruct (existsb (fun d => qltb _ (fst (highest q d))) _); [destruct (where_ _ _)|]; discriminate.
Qed.
(** No other exception than the intended ones. *)
Lemma dimension_found : Forall (fun a => (ax_lower a <= ax_upper a)%Qc) (sp_axes s) -> valid_queries s q <> NoDimension.
Proof.
  intros F. unfold valid_queries.
  destruct (Nat.eqb_spec (length (sp_axes s)) (t_cols q)) as [L|L]; cbn [negb]; [|easy].
  destruct (Nat.eqb_spec (length (t_rows q)) 0) as [Z|Z]; [easy|].
  assert (G : forall f e n, where_ f n = [] -> e < n -> f e = true -> False).
  { intros f e n W He Fe. assert (I : In e (where_ f n)) by (apply filter_In; split; auto; apply in_seq; lia). now rewrite W in I. }
  destruct (existsb (fun d => qltb (fst (lowest q d)) _) _) eqn:E1.
  - destruct (where_ _ _) as [|e l] eqn:W; [|discriminate]. exfalso.
    apply existsb_exists in E1 as (e & He & E1). apply in_seq in He. apply ltb_iff in E1.
    apply (G _ e _ W); [lia|]. apply ltb_iff.
    destruct (nth_error (sp_axes s) e) as [a|] eqn:Ha; [|apply nth_error_None in Ha; lia].
    rewrite (nth_axis _ _ _ _ _ Ha) in E1. rewrite (nth_axis _ _ _ _ _ Ha). apply Qclt_le_trans with (ax_lower a); auto.
    apply (proj1 (Forall_forall _ _) F). now apply nth_error_In in Ha.
  - destruct (existsb (fun d => qltb _ (fst (highest q d))) _) eqn:E2; [|discriminate].
    destruct (where_ _ _) as [|e l] eqn:W; [|discriminate]. exfalso.
    apply existsb_exists in E2 as (e & He & E2). apply in_seq in He.
    apply (G _ e _ W); [lia|]. exact E2.
Qed.
End Queries.

(** * Clamped knot vectors *)
Lemma skipn_at {A} (l : list A) : forall k i d, nth i (skipn k l) d = nth (k + i) l d.
Proof. induction l as [|x l IH]; intros [|k] i d; cbn; auto; destruct i; auto. Qed.
Lemma close_to_iff tol x l : (0 < tol)%Qc -> (forall y, In y l -> y = x \/ (tol <= qabs (y - x))%Qc) ->
  close_to tol x l = true <-> (forall y, In y l -> y = x).
Proof.
  intros T H. unfold close_to. rewrite forallb_forall. split; intros C y Hy.
  - destruct (H y Hy) as [|G]; auto. specialize (C y Hy). apply ltb_iff in C. exfalso. now apply (Qclt_not_le _ _ C).
  - apply ltb_iff. rewrite (C y Hy). replace (qabs (x - x)) with 0%Qc; auto.
    replace (x - x)%Qc with 0%Qc by ring. now apply Qc_is_canon.
Qed.
Lemma clamped_axis_iff tol p kv : (0 < tol)%Qc -> p + 1 <= length kv -> ends_clear tol (KnotAxis p kv) ->
  clamped_axis tol p kv = true <-> open_ends (KnotAxis p kv).
Proof.
  intros T L E. cbn [ends_clear open_ends] in *. unfold clamped_axis. rewrite andb_true_iff.
  rewrite close_to_iff; auto.
  2:{ intros y Hy. apply E; auto. rewrite <- (firstn_skipn (p + 1) kv). apply in_or_app. now left. }
  rewrite close_to_iff; auto.
  2:{ intros y Hy. apply E; auto. rewrite <- (firstn_skipn (length kv - (p + 1)) kv). apply in_or_app. now right. }
  assert (Hh : hd 0%Qc kv = kn kv 0) by (destruct kv; [cbn in L; lia|reflexivity]).
  assert (Hl : last kv 0%Qc = kn kv (length kv - 1)) by (unfold kn; rewrite !last_nth; apply nth_indep; lia).
  rewrite Hh, Hl.
  assert (K : forall i, i < length kv -> kn kv i = nth i kv 0%Qc) by (intros i Hi; unfold kn; apply nth_indep; lia).
  split; intros [H1 H2]; split.
  - intros i Hi. apply H1. rewrite K by lia.
    replace (nth i kv 0%Qc) with (nth i (firstn (p + 1) kv) 0%Qc).
    + apply nth_In. rewrite firstn_length. lia.
    + rewrite <- (firstn_skipn (p + 1) kv) at 2. rewrite app_nth1; auto. rewrite firstn_length. lia.
  - intros i Hi. apply H2. rewrite K by lia.
    replace (nth (length kv - 1 - i) kv 0%Qc) with (nth (p - i) (skipn (length kv - (p + 1)) kv) 0%Qc).
    + apply nth_In. rewrite skipn_length. lia.
    + rewrite skipn_at. f_equal. lia.
  - intros y Hy. destruct (In_nth _ _ 0%Qc Hy) as (i & Hi & <-). rewrite firstn_length in Hi.
    rewrite <- (H1 i) by lia. rewrite K by lia.
    rewrite <- (firstn_skipn (p + 1) kv) at 2. rewrite app_nth1; auto. rewrite firstn_length. lia.
  - intros y Hy. destruct (In_nth _ _ 0%Qc Hy) as (i & Hi & <-). rewrite skipn_length in Hi.
    rewrite <- (H2 (p - i)) by lia. rewrite K by lia.
    rewrite skipn_at. f_equal. lia.
Qed.

Lemma clamped_iff tol s : (0 < tol)%Qc -> sp_wf s -> one_family s -> Forall (ends_clear tol) (sp_axes s) ->
  clamped_knot_vectors tol s = true <-> Forall open_ends (sp_axes s).
Proof.
  intros T (W & _) F E. unfold clamped_knot_vectors, has_kvs.
  assert (A : forallb (fun a => match a with BezierAxis _ => true | KnotAxis d kv => clamped_axis tol d kv end) (sp_axes s) = true
              <-> Forall open_ends (sp_axes s)).
  { rewrite forallb_forall, Forall_forall.
    assert (B : forall a, In a (sp_axes s) -> match a with BezierAxis _ => true | KnotAxis d kv => clamped_axis tol d kv end = true
                          <-> open_ends a).
    { intros a Ha. rewrite Forall_forall in W, E. specialize (W a Ha). specialize (E a Ha). destruct a as [p|p kv]; [easy|].
      apply clamped_axis_iff; auto. destruct W as (W & _). lia. }
    split; intros H a Ha; apply B; auto. }
  destruct F as [F|F].
  - assert (H : Forall open_ends (sp_axes s)).
    { apply Forall_forall. intros a Ha. rewrite Forall_forall in F. destruct (F a Ha) as [p ->]. exact I. }
    destruct (sp_axes s) as [|a l] eqn:X; [easy|]. inversion F as [|? ? [p ->]]. cbn [negb]. easy.
  - destruct (sp_axes s) as [|a l] eqn:X; [cbn; split; auto; constructor|]. destruct (Forall_inv F) as (p & kv & ->). cbn [negb]. exact A.
Qed.

(** * Corners *)
Lemma open_clamped a : ax_wf a -> open_ends a -> ends_not_excess a -> ax_clamped a.
Proof.
  destruct a as [p|p kv]; cbn [ax_wf open_ends ends_not_excess ax_clamped]; auto.
  intros W [H1 H2] [H3 H4]. pose proof (ax_n_degree (KnotAxis p kv) W) as D. cbn [ax_degree] in D.
  destruct W as (L & _ & _). set (n := ax_n (KnotAxis p kv)) in *.
  replace (length kv - 2 - p) with (n - 1) in H4 by lia. pose proof (H2 p (Nat.le_refl p)) as H5.
  replace (length kv - 1 - p) with n in H5 by lia. replace (length kv - 1) with (n + p) in H4, H5 by lia.
  pose proof (H1 p (Nat.le_refl p)) as H6. rewrite H6, H5. repeat split; auto.
Qed.
Lemma tensor_ends axes : forall ups c, Forall ax_wf axes -> Forall ax_clamped axes -> length ups = length axes ->
  tensor (sp_basis axes (map (fun ab => if snd ab : bool then ax_upper (fst ab) else ax_lower (fst ab)) (combine axes ups))) c =
  c (map (fun ab => if snd ab : bool then ax_n (fst ab) - 1 else 0) (combine axes ups)).
Proof.
  induction axes as [|a axes IH]; intros [|b ups] c W C L; try discriminate L; [reflexivity|].
  pose proof (Forall_inv W) as Wa. pose proof (Forall_inv C) as Ca.
  apply Forall_inv_tail in W. apply Forall_inv_tail in C. injection L as L.
  pose proof (ax_n_degree a Wa) as D.
  unfold sp_basis. cbn [combine map tensor fst snd].
  fold (sp_basis axes (map (fun ab => if snd ab : bool then ax_upper (fst ab) else ax_lower (fst ab)) (combine axes ups))).
  rewrite (qsum_single _ (ax_n a) (if b then ax_n a - 1 else 0)).
  - rewrite IH by auto. destruct b.
    + rewrite ax_fun_upper, Nat.eqb_refl by (auto; lia). ring.
    + rewrite ax_fun_lower, Nat.eqb_refl by auto. ring.
  - destruct b; lia.
  - intros i Hi Hne. destruct b.
    + rewrite ax_fun_upper by auto. destruct (Nat.eqb_spec i (ax_n a - 1)); [easy|ring].
    + rewrite ax_fun_lower by auto. destruct (Nat.eqb_spec i 0); [easy|ring].
Qed.
Lemma corner_value s ups d : sp_wf s -> Forall ax_clamped (sp_axes s) -> length ups = length (sp_axes s) ->
  (forall ws, sp_weights s = Some ws -> nth (flat_id (sp_res s) (corner_index s ups)) ws 0%Qc <> 0%Qc) ->
  sp_value s (corner_at s ups) d = net (sp_res s) (sp_cps s) d (corner_index s ups).
Proof.
  intros (W & _) C L P. unfold sp_value, corner_at. destruct (sp_weights s) as [ws|] eqn:E.
  - cbn zeta. rewrite !tensor_ends by auto. fold (corner_index s ups). specialize (P ws eq_refl). field. exact P.
  - rewrite tensor_ends by auto. reflexivity.
Qed.
