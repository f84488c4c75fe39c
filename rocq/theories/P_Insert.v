(** Batched knot insertion and uniform refinement. *)
From Coq Require Import List Arith Lia ZArith QArith Qcanon Permutation Sorted.
From Verif Require Import Base BaseRadix BaseQc BaseSort S_Spline S_Value P_Basis P_Spline P_Value
  P_KnotInsert M_Knots S_Knots P_Knots.
Import ListNotations.
Local Open Scope nat_scope.

(** * Generic sorting facts *)
Lemma ssorted_unique {A} (lt : A -> A -> Prop) (asym : forall x y, lt x y -> lt y x -> False) l l' :
  StronglySorted lt l -> StronglySorted lt l' -> (forall x, In x l <-> In x l') -> l = l'.
Proof.
  intros H; revert l'; induction H as [|x l H IH HF]; intros l' H' E.
  - destruct l' as [|y l']; auto. exfalso. apply (E y). now left.
  - destruct l' as [|y l'].
    { exfalso. apply (E x). now left. }
    inversion H' as [|? ? H1 HF1]; subst. rewrite Forall_forall in *.
    assert (x = y).
    { destruct (proj1 (E x) (or_introl eq_refl)) as [|Hx]; auto.
      destruct (proj2 (E y) (or_introl eq_refl)) as [|Hy]; auto.
      exfalso. apply (asym x y); auto. }
    subst y. f_equal. apply IH; auto. intros z. split; intros Hz.
    + destruct (proj1 (E z) (or_intror Hz)) as [->|]; auto.
      exfalso. apply (asym z z); auto.
    + destruct (proj2 (E z) (or_intror Hz)) as [->|]; auto.
      exfalso. apply (asym z z); auto.
Qed.
Lemma ssorted_app {A} (lt : A -> A -> Prop) l m :
  StronglySorted lt l -> StronglySorted lt m -> (forall x y, In x l -> In y m -> lt x y) ->
  StronglySorted lt (l ++ m).
Proof.
  induction 1 as [|x l H IH HF]; intros Hm Hlm; cbn; auto. constructor.
  - apply IH; auto. intros a b Ha Hb. apply Hlm; auto. now right.
  - apply Forall_app. split; auto. apply Forall_forall. intros y Hy. apply Hlm; auto. now left.
Qed.
Lemma ssorted_filter {A} (lt : A -> A -> Prop) f l : StronglySorted lt l -> StronglySorted lt (filter f l).
Proof.
  induction 1 as [|x l H IH HF]; cbn; [constructor|]. destruct (f x); auto. constructor; auto.
  rewrite Forall_forall in *. intros y Hy. apply filter_In in Hy. now apply HF.
Qed.
Lemma ssorted_map {A B} (lt : A -> A -> Prop) (lt' : B -> B -> Prop) (g : A -> B) l :
  (forall x y, lt x y -> lt' (g x) (g y)) -> StronglySorted lt l -> StronglySorted lt' (map g l).
Proof.
  intros Hg. induction 1 as [|x l H IH HF]; cbn; constructor; auto.
  rewrite Forall_map. eapply Forall_impl; [|exact HF]. auto.
Qed.
Lemma ssorted_seq a n : StronglySorted lt (seq a n).
Proof.
  revert a; induction n; intros a; cbn; constructor; auto. apply Forall_forall. intros x Hx.
  apply in_seq in Hx. lia.
Qed.

Lemma filter_nth_count (f : Qc -> bool) l :
  length (filter (fun i => f (nth i l 0%Qc)) (seq 0 (length l))) = length (filter f l).
Proof.
  assert (G : forall l a, length (filter (fun i => f (nth (i - a) l 0%Qc)) (seq a (length l))) = length (filter f l)).
  { clear l. induction l as [|y l IH]; intros a; auto.
    assert (E : length (filter (fun i => f (nth (i - a) (y :: l) 0%Qc)) (seq (S a) (length l))) = length (filter f l)).
    { rewrite <- (IH (S a)). f_equal. apply filter_ext_in. intros i Hi. apply in_seq in Hi.
      replace (i - a) with (S (i - S a)) by lia. reflexivity. }
    change (seq a (length (y :: l))) with (a :: seq (S a) (length l)). cbn [filter].
    rewrite Nat.sub_diag. change (nth 0 (y :: l) 0%Qc) with y.
    destruct (f y); cbn [length]; now rewrite E. }
  rewrite <- (G l 0). f_equal. apply filter_ext. intros i. now rewrite Nat.sub_0_r.
Qed.

(** * Stable argsort *)
Section Groups.
Variables (eps : Qc) (ks us : list Qc).
Let v i := nth i ks 0%Qc.
Let n := length ks.
Hypothesis Heps : (0 < eps)%Qc.
Hypothesis Hapart : apart eps ks.
Hypothesis Hus : StronglySorted Qclt us.
Hypothesis Hin : forall x, In x us <-> In x ks.

Let lex i j := (v i < v j)%Qc \/ (v i = v j /\ i < j).
Let group x := filter (fun i => qeqb x (v i)) (seq 0 n).

Lemma lex_trans i j k : lex i j -> lex j k -> lex i k.
Proof.
  unfold lex. intros [H|[H1 H2]] [G|[G1 G2]].
  - left. qlra.
  - left. qlra.
  - left. qlra.
  - right. split; [congruence|lia].
Qed.
Lemma lex_asym i j : lex i j -> lex j i -> False.
Proof. unfold lex. intros [H|[H1 H2]] [G|[G1 G2]]; try qlra. lia. Qed.

Lemma ainsert_In i l j : In j (ainsert v i l) <-> j = i \/ In j l.
Proof.
  induction l as [|k l IH]; cbn; [intuition|].
  destruct (qleb (v i) (v k)); cbn; [intuition|]. rewrite IH. intuition.
Qed.
Lemma ainsert_lex i l : StronglySorted lex l -> (forall j, In j l -> i < j) -> StronglySorted lex (ainsert v i l).
Proof.
  induction 1 as [|k l H IH HF]; intros Hi; cbn; [repeat constructor|].
  assert (Hik : i < k) by (apply Hi; now left).
  destruct (qleb_spec (v i) (v k)) as [Hle|Hle].
  - assert (L : lex i k).
    { destruct (Qclt_le_dec (v i) (v k)) as [|G]; [now left|right]. split; auto. now apply Qcle_antisym. }
    constructor; [constructor; auto|]. constructor; auto.
    eapply Forall_impl; [|exact HF]. intros j. now apply lex_trans.
  - constructor.
    + apply IH. intros j Hj. apply Hi. now right.
    + apply Forall_forall. intros j Hj. apply ainsert_In in Hj. destruct Hj as [->|Hj].
      * left. qlra.
      * rewrite Forall_forall in HF. auto.
Qed.
Lemma argsort_lex_gen a m :
  StronglySorted lex (fold_right (ainsert v) [] (seq a m)) /\
  forall j, In j (fold_right (ainsert v) [] (seq a m)) <-> a <= j < a + m.
Proof.
  revert a; induction m; intros a; cbn [seq fold_right].
  - split; [constructor|]. cbn. lia.
  - destruct (IHm (S a)) as [S1 E1]. split.
    + apply ainsert_lex; auto. intros j Hj. apply E1 in Hj. lia.
    + intros j. rewrite ainsert_In, E1. lia.
Qed.

Lemma group_In x i : In i (group x) <-> i < n /\ v i = x.
Proof.
  unfold group. rewrite filter_In, in_seq. destruct (qeqb_spec x (v i)); intuition; try easy; lia.
Qed.
Lemma groups_lex us' : StronglySorted Qclt us' -> StronglySorted lex (flat_map group us').
Proof.
  induction 1 as [|x l H IH HF]; cbn; [constructor|]. apply ssorted_app; auto.
  - assert (S : StronglySorted lt (group x)) by (apply ssorted_filter, ssorted_seq).
    assert (F : forall i, In i (group x) -> v i = x) by (intros i Hi; now apply group_In in Hi).
    induction S as [|i g S IHS HS]; constructor; auto.
    + apply IHS. intros j Hj. apply F. now right.
    + rewrite Forall_forall in *. intros j Hj. right. split; auto.
      rewrite (F i), (F j); auto; [now right|now left].
  - intros i j Hi Hj. apply group_In in Hi. apply in_flat_map in Hj. destruct Hj as (y & Hy & Hj).
    apply group_In in Hj. left. destruct Hi as [_ ->], Hj as [_ ->].
    rewrite Forall_forall in HF. auto.
Qed.
Lemma argsort_groups : stable_argsort ks = flat_map group us.
Proof.
  apply (ssorted_unique lex lex_asym).
  - apply argsort_lex_gen.
  - now apply groups_lex.
  - intros i. unfold stable_argsort. fold v. destruct (argsort_lex_gen 0 n) as [_ E].
    change (length ks) with n. rewrite E. rewrite in_flat_map. split.
    + intros Hi. exists (v i). split; [apply Hin, nth_In; unfold n in *; lia|]. apply group_In. split; [lia|auto].
    + intros (x & _ & Hx). apply group_In in Hx. lia.
Qed.

(** * Unique indices and multiplicities of the groups *)
Let same a b := near eps (nth a ks 0%Qc) (nth b ks 0%Qc).
Let first x := hd 0 (group x).

Lemma same_spec i j : i < n -> j < n -> (same i j = true <-> v i = v j).
Proof.
  intros Hi Hj. unfold same, v. apply (apart_near eps ks); auto; apply nth_In; auto.
Qed.
Lemma group_first x : In x us -> exists g, group x = first x :: g /\ (forall i, In i g -> i < n /\ v i = x)
  /\ first x < n /\ v (first x) = x /\ ~ In (first x) g.
Proof.
  intros Hx. apply Hin in Hx. destruct (In_nth _ _ 0%Qc Hx) as (i & Hi & Ei).
  assert (Hg : In i (group x)) by (apply group_In; split; auto).
  assert (ND : NoDup (group x)) by (apply NoDup_filter, seq_NoDup).
  unfold first. destruct (group x) as [|k g] eqn:E; [easy|]. exists g. cbn [hd]. split; auto.
  assert (F : forall i, In i (k :: g) -> i < n /\ v i = x) by (intros j Hj; rewrite <- E in Hj; now apply group_In).
  split; [intros j Hj; apply F; now right|]. destruct (F k (or_introl eq_refl)). inversion ND; subst; auto.
Qed.
Lemma unique_skip cur g rest :
  cur < n -> (forall i, In i g -> i < n /\ v i = v cur) ->
  unique_from same cur (g ++ rest) = unique_from same cur rest.
Proof.
  intros Hc. induction g as [|i g IH]; intros Hg; cbn; auto.
  destruct (Hg i (or_introl eq_refl)) as [Hi Ei].
  assert (same cur i = true) as -> by (apply same_spec; auto).
  apply IH. intros j Hj. apply Hg. now right.
Qed.
Lemma unique_groups us' cur :
  StronglySorted Qclt us' -> incl us' us -> cur < n -> Forall (Qclt (v cur)) us' ->
  unique_from same cur (flat_map group us') = map first us'.
Proof.
  intros S; revert cur; induction S as [|x l S IH HF]; intros cur I Hc Hall; cbn; auto.
  destruct (group_first x) as (g & E & Hg & Hf & Ef & _); [apply I; now left|].
  rewrite E. cbn [app unique_from]. inversion Hall; subst.
  assert (same cur (first x) = false) as ->.
  { destruct (same cur (first x)) eqn:Es; auto. apply same_spec in Es; auto. rewrite Ef in Es.
    match goal with H : (v cur < x)%Qc |- _ => rewrite Es in H; exfalso; clear - H; qlra end. }
  f_equal. rewrite unique_skip; auto; [|now rewrite Ef].
  apply IH; auto.
  - intros y Hy. apply I. now right.
  - now rewrite Ef.
Qed.
Lemma std_unique_groups us' :
  StronglySorted Qclt us' -> incl us' us -> std_unique same (flat_map group us') = map first us'.
Proof.
  intros S I. destruct us' as [|x l]; auto. cbn [flat_map map].
  destruct (group_first x) as (g & E & Hg & Hf & Ef & _); [apply I; now left|].
  rewrite E. cbn [app std_unique]. f_equal. rewrite unique_skip; auto; [|now rewrite Ef].
  inversion S as [|? ? S1 HF]; subst. apply unique_groups; auto; [|now rewrite Ef].
  intros y Hy. apply I. now right.
Qed.
Lemma walk_skip u m g rest : ~ In u g -> walk u m (g ++ u :: rest) = Some (m + length g, u :: rest).
Proof.
  revert m; induction g as [|i g IH]; intros m H; cbn.
  - rewrite Nat.eqb_refl. f_equal. f_equal. lia.
  - destruct (Nat.eqb_spec i u) as [->|]; [exfalso; apply H; now left|].
    rewrite IH by (intros G; apply H; now right). f_equal. f_equal. lia.
Qed.
Lemma group_length x : length (group x) = requests x ks.
Proof.
  unfold group, requests, v, n. apply (filter_nth_count (qeqb x)).
Qed.
Lemma multiplicities_groups us' :
  StronglySorted Qclt us' -> incl us' us -> us' <> [] ->
  multiplicities (map first us') (flat_map group us') = Some (map (fun x => requests x ks) us').
Proof.
  induction 1 as [|x l S IH HF]; intros I Hne; [easy|]. cbn [map flat_map multiplicities].
  destruct l as [|y l].
  - cbn [map flat_map]. rewrite app_nil_r. now rewrite group_length.
  - cbn [map] in IH |- *.
    destruct (group_first x) as (g & E & Hg & Hf & Ef & _); [apply I; now left|].
    destruct (group_first y) as (gy & Ey & Hgy & Hfy & Efy & _); [apply I; right; now left|].
    assert (IH' := IH ltac:(intros z Hz; apply I; now right) ltac:(discriminate)).
    rewrite <- (group_length x), E. cbn [app tl length].
    cbn [flat_map] in IH' |- *. rewrite Ey in IH' |- *. cbn [app] in IH' |- *.
    rewrite walk_skip.
    + rewrite IH'. reflexivity.
    + intros G. apply Hg in G. destruct G as [_ G]. rewrite Efy in G.
      inversion HF as [|? ? Hxy]; subst. clear - Hxy. qlra.
Qed.

(** * Flags *)
Context {St : Type} (kernel : St -> Qc -> nat -> St * nat).

Lemma write_flags_spec g rest m flags :
  NoDup g -> (forall i, In i g -> i < length flags) ->
  exists flags', write_flags (g ++ rest) (length g) m flags = (rest, flags') /\ length flags' = length flags /\
    (forall k d, k < length g -> nth (nth k g 0) flags' d = Some (k <? m)) /\
    (forall i d, ~ In i g -> nth i flags' d = nth i flags d).
Proof.
  revert m flags; induction g as [|i g IH]; intros m flags ND Hl; cbn [length app write_flags].
  - exists flags. split; [now destruct rest|]. split; auto. split; auto. intros; lia.
  - inversion ND as [|? ? Hi ND']; subst.
    destruct (IH (m - 1) (set_nth flags i (Some (0 <? m))) ND') as (f' & E & L & H1 & H2).
    { intros j Hj. rewrite set_nth_length. apply Hl. now right. }
    exists f'. rewrite E. split; auto. rewrite set_nth_length in L. split; auto.
    assert (Li : i < length flags) by (apply Hl; now left).
    split.
    + intros [|k] d Hk; cbn [nth].
      * rewrite H2 by auto. rewrite set_nth_nth, Nat.eqb_refl by auto. reflexivity.
      * rewrite H1 by (cbn [length] in Hk; lia). f_equal.
        destruct (Nat.ltb_spec k (m - 1)), (Nat.ltb_spec (S k) m); auto; lia.
    + intros j d Hj. rewrite H2 by (intros G; apply Hj; now right).
      rewrite set_nth_nth by auto. destruct (Nat.eqb_spec j i) as [->|]; auto. exfalso; apply Hj; now left.
Qed.

(** Position of a request within its group. *)
Lemma group_rank i : i < n -> exists k, k < length (group (v i)) /\ nth k (group (v i)) 0 = i /\
  k = requests (v i) (firstn i ks).
Proof.
  intros Hi. exists (length (filter (fun j => qeqb (v i) (v j)) (seq 0 i))).
  assert (E : group (v i) = filter (fun j => qeqb (v i) (v j)) (seq 0 i) ++ i ::
    filter (fun j => qeqb (v i) (v j)) (seq (S i) (n - S i))).
  { unfold group. replace n with (i + S (n - S i)) at 1 by lia. rewrite seq_app, filter_app.
    cbn [seq filter Nat.add]. destruct (qeqb_spec (v i) (v i)); easy. }
  rewrite E. split; [rewrite app_length; cbn; lia|]. split.
  - rewrite app_nth2 by lia. now rewrite Nat.sub_diag.
  - clear E. unfold requests.
    assert (G : filter (fun j => qeqb (v i) (v j)) (seq 0 i) =
                filter (fun j => qeqb (v i) (nth j (firstn i ks) 0%Qc)) (seq 0 (length (firstn i ks)))).
    { rewrite firstn_length_le by (unfold n in Hi; lia). apply filter_ext_in. intros j Hj. apply in_seq in Hj.
      unfold v at 2. rewrite nth_firstn by lia. reflexivity. }
    rewrite G. apply (filter_nth_count (qeqb (v i))).
Qed.

Lemma insert_groups_spec us' st flags :
  StronglySorted Qclt us' -> incl us' us -> length flags = n ->
  exists flags',
    insert_groups kernel ks (map first us') (map (fun x => requests x ks) us') (flat_map group us') st flags =
      (feed kernel ks us' st, flags') /\ length flags' = n /\
    forall i d, i < n -> nth i flags' d =
      if in_dec Qc_eq_dec (v i) us' then Some (requests (v i) (firstn i ks) <? added kernel ks us' st (v i))
      else nth i flags d.
Proof.
  intros S; revert st flags; induction S as [|x l S IH HF]; intros st flags I L;
    cbn [map insert_groups flat_map feed added].
  - exists flags. split; [reflexivity|]. split; auto.
  - destruct (group_first x) as (g & E & Hg & Hf & Ef & _); [apply I; now left|].
    replace (nth (first x) ks 0%Qc) with x by (symmetry; exact Ef).
    destruct (kernel st x (requests x ks)) as [st1 a] eqn:EK. cbn [fst snd].
    rewrite <- (group_length x).
    destruct (write_flags_spec (group x) (flat_map group l) a flags) as (f1 & W & L1 & F1 & F2).
    { apply NoDup_filter, seq_NoDup. }
    { intros i Hi. apply group_In in Hi. lia. }
    rewrite W.
    destruct (IH st1 f1) as (f2 & E2 & L2 & G2).
    { intros y Hy. apply I. now right. }
    { lia. }
    exists f2. split; [exact E2|]. split; auto. intros i d Hi. rewrite G2 by auto.
    destruct (in_dec Qc_eq_dec (v i) (x :: l)) as [Hx|Hx].
    + destruct (qeqb_spec (v i) x) as [Ex|Hne].
      * destruct (in_dec Qc_eq_dec (v i) l) as [G|_].
        { exfalso. rewrite Ex in G. rewrite Forall_forall in HF. specialize (HF x G). clear -HF. qlra. }
        destruct (group_rank i Hi) as (k & Hk & Ek & Rk). rewrite Ex in Hk, Ek.
        rewrite <- Rk. rewrite <- Ek at 1. now apply F1.
      * destruct (in_dec Qc_eq_dec (v i) l) as [_|G]; [|exfalso; destruct Hx; congruence].
        reflexivity.
    + destruct (in_dec Qc_eq_dec (v i) l) as [G|_]; [exfalso; apply Hx; now right|].
      apply F2. intros G. apply group_In in G. apply Hx. left. symmetry. apply G.
Qed.
End Groups.

(** C18 *)
Lemma insert_core_spec {St} (kernel : St -> Qc -> nat -> St * nat) eps st ks us :
  (0 < eps)%Qc -> apart eps ks -> ks <> [] ->
  StronglySorted Qclt us -> (forall x, In x us <-> In x ks) ->
  exists flags, insert_knots_core kernel eps st ks = Some (feed kernel ks us st, flags) /\
    length flags = length ks /\
    forall i, i < length ks ->
      nth i flags None =
      Some (requests (nth i ks 0%Qc) (firstn i ks) <? added kernel ks us st (nth i ks 0%Qc)).
Proof.
  intros He Ha Hne Hus Hin. unfold insert_knots_core.
  rewrite (argsort_groups eps ks us Hus Hin).
  rewrite (std_unique_groups eps ks us He Ha Hin us Hus (incl_refl _)).
  assert (us <> []).
  { intros ->. destruct ks as [|x ks]; auto. apply (Hin x). now left. }
  rewrite (multiplicities_groups eps ks us Hin us Hus (incl_refl _)) by auto.
  destruct (insert_groups_spec eps ks us Hin kernel us st (repeat None (length ks)) Hus (incl_refl _))
    as (f & E & L & F).
  { apply repeat_length. }
  rewrite E. exists f. split; auto. split; auto. intros i Hi. rewrite F by auto.
  destruct (in_dec Qc_eq_dec (nth i ks 0%Qc) us) as [_|G]; auto.
  exfalso. apply G, Hin, nth_In; auto.
Qed.

Lemma requests_perm x ks ks' : Permutation ks ks' -> requests x ks = requests x ks'.
Proof.
  unfold requests. induction 1; cbn; auto; try congruence.
  - destruct (qeqb x x0); cbn; congruence.
  - destruct (qeqb x x0), (qeqb x y); cbn; congruence.
Qed.
Lemma feed_requests {St} (kernel : St -> Qc -> nat -> St * nat) ks ks' us st :
  (forall x, requests x ks = requests x ks') -> feed kernel ks us st = feed kernel ks' us st.
Proof. intros H; revert st; induction us; intros st; cbn; auto. now rewrite H. Qed.

(** The distinct values of a list, ascending. *)
Lemma distinct_exists (ks : list Qc) : exists us, StronglySorted Qclt us /\ forall x, In x us <-> In x ks.
Proof.
  exists (qsort (nodup Qc_eq_dec ks)). split.
  - pose proof (qsort_sorted (nodup Qc_eq_dec ks)) as S.
    assert (ND : NoDup (qsort (nodup Qc_eq_dec ks))).
    { eapply Permutation_NoDup; [symmetry; apply qsort_perm|apply NoDup_nodup]. }
    induction S as [|x l S IH HF]; constructor; inversion ND; subst; auto.
    rewrite Forall_forall in *. intros y Hy. specialize (HF y Hy). apply Qcle_lt_or_eq in HF.
    destruct HF; auto. now subst.
  - intros x. split; intros H.
    + eapply Permutation_in in H; [|apply qsort_perm]. now apply nodup_In in H.
    + eapply Permutation_in; [symmetry; apply qsort_perm|]. now apply nodup_In.
Qed.

Lemma insert_order_independent {St} (kernel : St -> Qc -> nat -> St * nat) eps st ks ks' :
  (0 < eps)%Qc -> apart eps ks -> ks <> [] -> Permutation ks ks' ->
  exists st' f f', insert_knots_core kernel eps st ks = Some (st', f) /\
    insert_knots_core kernel eps st ks' = Some (st', f').
Proof.
  intros He Ha Hne P. destruct (distinct_exists ks) as (us & S & E).
  destruct (insert_core_spec kernel eps st ks us He Ha Hne S E) as (f & R & _).
  destruct (insert_core_spec kernel eps st ks' us) as (f' & R' & _); auto.
  - intros x y Hx Hy. apply Ha; eapply Permutation_in; try eassumption; now symmetry.
  - intros ->. apply Permutation_sym, Permutation_nil in P. auto.
  - intros x. rewrite E. split; apply Permutation_in; auto. now symmetry.
  - exists (feed kernel ks us st), f, f'. split; auto. rewrite R'. f_equal. f_equal.
    apply feed_requests. intros x. apply requests_perm. now symmetry.
Qed.

(** * Knots of the flagged requests *)
Notation "'cnt'" := (count_occ Qc_eq_dec).
Lemma requests_count x ks : requests x ks = cnt ks x.
Proof.
  unfold requests. induction ks as [|y ks IH]; cbn; auto.
  destruct (qeqb_spec x y), (Qc_eq_dec y x); cbn; congruence.
Qed.
Lemma flagged_app ks ks' f f' : length ks = length f -> flagged (ks ++ ks') (f ++ f') = flagged ks f ++ flagged ks' f'.
Proof.
  intros L. unfold flagged. rewrite <- map_app, <- filter_app. f_equal. f_equal.
  revert f L; induction ks; intros [|y f] L; cbn in *; try lia; auto. now rewrite IHks by lia.
Qed.
Lemma flagged_count (a : Qc -> nat) ks flags x :
  length flags = length ks ->
  (forall i, i < length ks -> nth i flags None = Some (requests (nth i ks 0%Qc) (firstn i ks) <? a (nth i ks 0%Qc))) ->
  cnt (flagged ks flags) x = Nat.min (a x) (requests x ks).
Proof.
  revert flags; induction ks as [|y ks IH] using rev_ind; intros flags L H.
  - destruct flags; [|easy]. cbn. lia.
  - rewrite app_length in L. cbn in L.
    destruct (exists_last (l := flags)) as (f & b & ->). { destruct flags; [cbn in L; lia|easy]. }
    rewrite app_length in L. cbn in L. assert (L' : length f = length ks) by lia.
    rewrite flagged_app by auto. rewrite count_occ_app, IH; auto.
    + specialize (H (length ks) ltac:(rewrite app_length; cbn; lia)).
      rewrite <- L' in H at 1. rewrite nth_middle, nth_middle in H.
      rewrite firstn_app, Nat.sub_diag, firstn_all in H. cbn [firstn] in H. rewrite app_nil_r in H. subst b.
      assert (E : requests x (ks ++ [y]) = requests x ks + if qeqb x y then 1 else 0).
      { unfold requests. rewrite filter_app, app_length. cbn. now destruct (qeqb x y). }
      rewrite E. unfold flagged. cbn [combine filter snd map].
      destruct (Nat.ltb_spec (requests y ks) (a y)); cbn [map fst count_occ];
        destruct (qeqb_spec x y) as [->|Hxy]; try (destruct (Qc_eq_dec y x); [congruence|]); try lia;
        destruct (Qc_eq_dec y y); try congruence; lia.
    + intros i Hi. specialize (H i ltac:(rewrite app_length; lia)).
      rewrite !app_nth1 in H by lia. rewrite firstn_app in H.
      replace (i - length ks) with 0 in H by lia. cbn [firstn] in H. now rewrite app_nil_r in H.
Qed.
Lemma requests_in x ks : In x ks <-> 0 < requests x ks.
Proof. rewrite requests_count. apply count_occ_In. Qed.

Section Lib.
Variables (ins : list Qc -> Qc -> nat -> list Qc) (p : nat).

Lemma guarded_copies kv x m : inserts_copies ins -> qsorted kv ->
  exists c, c <= m /\ qsorted (fst (guarded_insert ins p kv x m)) /\ snd (guarded_insert ins p kv x m) = c /\
    forall y, cnt (fst (guarded_insert ins p kv x m)) y = cnt kv y + if Qc_eq_dec x y then c else 0.
Proof.
  intros HI S. unfold guarded_insert. destruct (_ || _)%bool; cbn [fst snd].
  - exists 0. repeat split; auto; try lia. intros y. destruct (Qc_eq_dec x y); lia.
  - destruct (HI kv x m) as (c & Hc & S' & P); [now apply nd_sorted|].
    exists c. split; auto. split; [now apply nd_sorted|]. split.
    + apply Permutation_length in P. rewrite P, app_length, repeat_length. lia.
    + intros y. rewrite (proj1 (Permutation_count_occ Qc_eq_dec _ _) P y), count_occ_app. f_equal.
      destruct (Qc_eq_dec x y) as [->|Hne]; [now apply count_occ_repeat_eq|apply count_occ_repeat_neq; congruence].
Qed.

Lemma feed_copies ks us kv :
  inserts_copies ins -> StronglySorted Qclt us -> qsorted kv ->
  qsorted (feed (guarded_insert ins p) ks us kv) /\
  (forall y, added (guarded_insert ins p) ks us kv y <= requests y ks) /\
  forall y, cnt (feed (guarded_insert ins p) ks us kv) y = cnt kv y + added (guarded_insert ins p) ks us kv y.
Proof.
  intros HI S; revert kv; induction S as [|x l S IH HF]; intros kv HS; cbn [feed added].
  - repeat split; auto; lia.
  - destruct (guarded_copies kv x (requests x ks) HI HS) as (c & Hc & S1 & E1 & C1).
    destruct (IH _ S1) as (S2 & A2 & C2). split; auto. split; intros y; specialize (A2 y); specialize (C2 y).
    + destruct (qeqb_spec y x) as [->|]; auto. lia.
    + rewrite C2, C1. destruct (qeqb_spec y x) as [->|Hne].
      * destruct (Qc_eq_dec x x); [|congruence].
        assert (Z : forall st, added (guarded_insert ins p) ks l st x = 0).
        { clear -HF. induction l as [|z l IHl]; intros st; cbn; auto. inversion HF as [|? ? Hz HF']; subst.
          destruct (qeqb_spec x z) as [->|]; [exfalso; clear -Hz; qlra|auto]. }
        rewrite Z. lia.
      * destruct (Qc_eq_dec x y); [congruence|]. lia.
Qed.

Lemma insert_flagged eps kv ks :
  inserts_copies ins -> (0 < eps)%Qc -> apart eps ks -> ks <> [] -> non_decreasing kv ->
  exists kv' flags, insert_knots_core (guarded_insert ins p) eps kv ks = Some (kv', flags) /\
    length flags = length ks /\ (forall i, i < length ks -> nth i flags None <> None) /\
    non_decreasing kv' /\ Permutation kv' (kv ++ flagged ks flags).
Proof.
  intros HI He Ha Hne ND. apply nd_sorted in ND. destruct (distinct_exists ks) as (us & S & E).
  destruct (insert_core_spec (guarded_insert ins p) eps kv ks us He Ha Hne S E) as (f & R & L & F).
  destruct (feed_copies ks us kv HI S ND) as (S' & A & C).
  eexists _, f. split; [exact R|]. split; auto. split; [intros i Hi; now rewrite F|].
  split; [now apply nd_sorted|].
  apply (Permutation_count_occ Qc_eq_dec). intros x. rewrite C, count_occ_app. f_equal.
  rewrite (flagged_count (added (guarded_insert ins p) ks us kv) ks f x L F). specialize (A x). lia.
Qed.
End Lib.

(** * Uniform refinement *)
Lemma inj_S_pos n : (0 < inj (n + 1))%Qc.
Proof. apply inj_pos. lia. Qed.

Lemma determine_cons a b r n : determine_new_knots (a :: b :: r) n =
  map (fun j => ((b - a) / inj (n + 1) * inj j + a)%Qc) (seq 1 n) ++ determine_new_knots (b :: r) n.
Proof. destruct n; reflexivity. Qed.
Lemma determine_one a n : determine_new_knots [a] n = [].
Proof. destruct n; reflexivity. Qed.
Lemma determine_nil n : determine_new_knots [] n = [].
Proof. destruct n; reflexivity. Qed.

Section New.
Variables (n : nat) (eps : Qc).
Let N := inj (n + 1).
Let f (a b : Qc) (j : nat) : Qc := ((b - a) / N * inj j + a)%Qc.

Lemma f_spec a b j : f a b j = (a + (b - a) * inj j / N)%Qc.
Proof. unfold f. field. pose proof (inj_S_pos n). unfold N. qlra. Qed.
Lemma f_step a b i j : (f a b j - f a b i = (b - a) / N * (inj j - inj i))%Qc.
Proof. unfold f. ring. Qed.
Lemma step_ge a b : (a + eps * N <= b)%Qc -> (eps <= (b - a) / N)%Qc.
Proof.
  intros H. pose proof (inj_S_pos n) as HN. fold N in HN.
  replace eps with (eps * N / N)%Qc by (field; qlra). apply div_le_iff; auto. qlra.
Qed.
Lemma f_gap a b i j : (0 < eps)%Qc -> (a + eps * N <= b)%Qc -> i < j -> (f a b i + eps <= f a b j)%Qc.
Proof.
  intros He H Hij. pose proof (f_step a b i j) as E. pose proof (step_ge a b H) as Hst.
  assert (H0 : (inj (S i) <= inj j)%Qc) by (apply inj_le; lia). rewrite inj_S in H0.
  set (D := ((b - a) / N)%Qc) in *. assert (H1 : (1 <= inj j - inj i)%Qc) by qlra.
  assert (D * 1 <= D * (inj j - inj i))%Qc by qnra. qlra.
Qed.
Lemma f_low a b : f a b 0 = a.
Proof. unfold f. change (inj 0) with 0%Qc. ring. Qed.
Lemma f_high a b : f a b (n + 1) = b.
Proof. unfold f. fold N. field. pose proof (inj_S_pos n). unfold N. qlra. Qed.

Let gap d x y := (x + d <= y)%Qc.
(** Every new knot lies between two neighbours, at distance eps. *)
Lemma new_between us x : (0 < eps)%Qc ->
  StronglySorted (gap (eps * N)) us -> In x (determine_new_knots us n) ->
  exists l1 a b l2, us = l1 ++ a :: b :: l2 /\ (a + eps <= x)%Qc /\ (x + eps <= b)%Qc.
Proof.
  intros He. induction 1 as [|a r S IH HF]; [now rewrite determine_nil|].
  destruct r as [|b r]; [now rewrite determine_one|]. rewrite determine_cons, in_app_iff, in_map_iff.
  intros [(j & <- & Hj)|Hx].
  - apply in_seq in Hj. exists [], a, b, r. split; auto. inversion HF as [|? ? Hab]; subst.
    change ((b - a) / inj (n + 1) * inj j + a)%Qc with (f a b j).
    pose proof (f_gap a b 0 j He Hab ltac:(lia)) as G1.
    pose proof (f_gap a b j (n + 1) He Hab ltac:(lia)) as G2. rewrite f_low in G1. rewrite f_high in G2. auto.
  - destruct (IH Hx) as (l1 & c & d & l2 & -> & H). exists (a :: l1), c, d, l2. auto.
Qed.
Lemma gap_pos : (0 < eps)%Qc -> (0 < eps * N)%Qc.
Proof. intros. pose proof (inj_S_pos n) as HN. fold N in HN. qnra. Qed.
Lemma new_ge b r y : (0 < eps)%Qc ->
  StronglySorted (gap (eps * N)) (b :: r) -> In y (determine_new_knots (b :: r) n) -> (b + eps <= y)%Qc.
Proof.
  intros He S Hy. apply new_between in Hy; auto. destruct Hy as (l1 & c & d & l2 & E & Hc & Hd).
  assert (b <= c)%Qc; [|qlra].
  destruct l1 as [|z l1]; inversion E; subst; [apply Qcle_refl|].
  inversion S as [|? ? S1 HS]; subst. rewrite Forall_forall in HS. specialize (HS c).
  assert (G : gap (eps * N) z c) by (apply HS; apply in_or_app; right; now left).
  unfold gap in G. pose proof (gap_pos He). qlra.
Qed.
Lemma new_gap us : (0 < eps)%Qc ->
  StronglySorted (gap (eps * N)) us -> StronglySorted (gap eps) (determine_new_knots us n).
Proof.
  intros He. induction 1 as [|a r S IH HF]; [rewrite determine_nil; constructor|].
  destruct r as [|b r]; [rewrite determine_one; constructor|]. rewrite determine_cons.
  inversion HF as [|? ? Hab]; subst.
  apply ssorted_app; auto.
  - eapply ssorted_map; [|apply ssorted_seq]. intros i j Hij. now apply (f_gap a b i j).
  - intros x y Hx Hy. apply in_map_iff in Hx. destruct Hx as (j & <- & Hj). apply in_seq in Hj.
    apply new_ge in Hy; auto.
    pose proof (f_gap a b j (n + 1) He Hab ltac:(lia)) as G. rewrite f_high in G.
    change ((b - a) / inj (n + 1) * inj j + a)%Qc with (f a b j). unfold gap. qlra.
Qed.
(** The new knots inside one span. *)
Lemma new_filter l1 a b l2 : (0 < eps)%Qc ->
  StronglySorted (gap (eps * N)) (l1 ++ a :: b :: l2) ->
  filter (fun x => qltb a x && qltb x b)%bool (determine_new_knots (l1 ++ a :: b :: l2) n) = equidistant a b n.
Proof.
  intros He. induction l1 as [|c l1 IH]; cbn [app]; intros S; inversion S as [|? ? S1 HF]; subst.
  - inversion HF as [|? ? Hab _]; subst.
    rewrite determine_cons, filter_app, filter_all, filter_none, app_nil_r.
    + unfold equidistant. apply map_ext. intros j. apply (f_spec a b j).
    + intros y Hy. apply new_ge in Hy; auto.
      destruct (qltb_spec y b); [exfalso; qlra|]. apply Bool.andb_false_r.
    + intros y Hy. apply in_map_iff in Hy. destruct Hy as (j & <- & Hj). apply in_seq in Hj.
      change ((b - a) / inj (n + 1) * inj j + a)%Qc with (f a b j).
      pose proof (f_gap a b 0 j He Hab ltac:(lia)) as G1.
      pose proof (f_gap a b j (n + 1) He Hab ltac:(lia)) as G2. rewrite f_low in G1. rewrite f_high in G2.
      destruct (qltb_spec a (f a b j)), (qltb_spec (f a b j) b); auto; exfalso; qlra.
  - specialize (IH S1).
    assert (E : exists d r, l1 ++ a :: b :: l2 = d :: r /\ (d <= a)%Qc /\ gap (eps * N) c d).
    { destruct l1 as [|d l1]; cbn in *.
      - exists a, (b :: l2). repeat split; [apply Qcle_refl|]. now inversion HF.
      - exists d, (l1 ++ a :: b :: l2). repeat split; [|now inversion HF].
        inversion S1 as [|? ? _ HF1]; subst. rewrite Forall_forall in HF1.
        specialize (HF1 a ltac:(apply in_or_app; right; now left)). unfold gap in HF1.
        pose proof (gap_pos He). qlra. }
    destruct E as (d & r & E & Hd & Hcd). rewrite E in *. rewrite determine_cons, filter_app, filter_none; auto.
    intros y Hy. apply in_map_iff in Hy. destruct Hy as (j & <- & Hj). apply in_seq in Hj.
    change ((d - c) / inj (n + 1) * inj j + c)%Qc with (f c d j).
    pose proof (f_gap c d j (n + 1) He Hcd ltac:(lia)) as G2. rewrite f_high in G2.
    destruct (qltb_spec a (f c d j)); auto. exfalso; qlra.
Qed.
End New.

(** Neighbours in a strictly sorted list. *)
Lemma neighbours (us : list Qc) a b :
  StronglySorted Qclt us -> In a us -> In b us -> (a < b)%Qc ->
  (forall x, In x us -> (x <= a)%Qc \/ (b <= x)%Qc) ->
  exists l1 l2, us = l1 ++ a :: b :: l2.
Proof.
  intros S; induction S as [|c r S IH HF]; intros Ha Hb Hab Hall; [easy|]. rewrite Forall_forall in HF.
  destruct Ha as [->|Ha].
  - destruct Hb as [->|Hb]; [exfalso; qlra|]. destruct r as [|d r]; [easy|].
    exists [], r. cbn. f_equal. f_equal.
    destruct Hb as [->|Hb]; auto. inversion S as [|? ? S1 HF1]; subst. rewrite Forall_forall in HF1.
    specialize (HF1 b Hb). specialize (HF d (or_introl eq_refl)).
    destruct (Hall d (or_intror (or_introl eq_refl))); exfalso; qlra.
  - destruct Hb as [->|Hb]; [specialize (HF a Ha); exfalso; qlra|].
    destruct IH as (l1 & l2 & ->); auto.
    { intros x Hx. apply Hall. now right. }
    now exists (c :: l1), l2.
Qed.

Lemma spans_gap p m kv d :
  knot_vector p m kv -> (0 < d)%Qc ->
  (forall i, p <= i < m -> (kn kv i < kn kv (i + 1))%Qc -> (d <= kn kv (i + 1) - kn kv i)%Qc) ->
  forall i j, p <= i -> i <= j <= m -> kn kv i = kn kv j \/ (kn kv i + d <= kn kv j)%Qc.
Proof.
  intros (_ & ND & _) Hd H i j Hi. pose proof (kn_mono kv ND) as M.
  induction j as [|j IH]; intros Hj; [left; f_equal; lia|].
  destruct (Nat.eq_dec i (S j)) as [->|Hne]; [now left|].
  pose proof (M j (S j) ltac:(lia)) as Hm.
  destruct (Qclt_le_dec (kn kv j) (kn kv (S j))) as [L|L].
  - specialize (H j ltac:(lia)). replace (j + 1) with (S j) in H by lia. specialize (H L).
    pose proof (M i j ltac:(lia)). right. qlra.
  - assert (E : kn kv j = kn kv (S j)) by now apply Qcle_antisym. rewrite <- E. apply IH. lia.
Qed.
Lemma ssorted_gap d l :
  StronglySorted Qclt l -> (forall x y, In x l -> In y l -> (x < y)%Qc -> (x + d <= y)%Qc) ->
  StronglySorted (fun x y => x + d <= y)%Qc l.
Proof.
  induction 1 as [|x l S IH HF]; intros H; constructor.
  - apply IH. intros a b Ha Hb. apply H; now right.
  - rewrite Forall_forall in *. intros y Hy. apply H; auto; [now left|now right].
Qed.
Lemma gap_apart d l : (0 < d)%Qc -> StronglySorted (fun x y => x + d <= y)%Qc l -> apart d l.
Proof.
  intros Hd. induction 1 as [|x l S IH HF]; intros a b Ha Hb; [easy|]. rewrite Forall_forall in HF.
  destruct Ha as [->|Ha], Hb as [->|Hb]; auto.
  - right. rewrite qabs_le; [|]; specialize (HF b Hb); qlra.
  - right. specialize (HF a Ha). unfold qabs. destruct (Qclt_le_dec (a - b) 0); qlra.
Qed.

(** Inserting inside keeps the parametric bounds. *)
Lemma qinsert_nth_low x l k d : qsorted l -> k < length l -> (nth k l d < x)%Qc -> nth k (qinsert x l) d = nth k l d.
Proof.
  intros S; revert k; induction S as [|y l S IH HF]; intros k Hk Hx; cbn in Hk; [lia|]. cbn [qinsert].
  assert (y <= nth k (y :: l) d)%Qc.
  { destruct k; [apply Qcle_refl|]. cbn. rewrite Forall_forall in HF. apply HF, nth_In. lia. }
  destruct (qleb_spec x y) as [G|G]; [exfalso; qlra|].
  destruct k; auto. cbn [nth] in *. apply IH; auto. lia.
Qed.
Lemma qinsert_nth_high x l k d : k < length l -> (x < nth k l d)%Qc -> nth (S k) (qinsert x l) d = nth k l d.
Proof.
  revert k; induction l as [|y l IH]; intros k Hk Hx; cbn in Hk; [lia|]. cbn [qinsert].
  destruct (qleb_spec x y) as [G|G]; auto. destruct k as [|k].
  - exfalso. cbn in Hx. qlra.
  - cbn [nth] in *. apply IH; auto. lia.
Qed.
Lemma qinsert_len x l : length (qinsert x l) = S (length l).
Proof. apply (Permutation_length (qinsert_perm x l)). Qed.
Lemma qinsert_kv p m kv x :
  knot_vector p m kv -> (kn kv p < x)%Qc -> (x < kn kv m)%Qc ->
  knot_vector p (S m) (qinsert x kv) /\ kn (qinsert x kv) p = kn kv p /\ kn (qinsert x kv) (S m) = kn kv m.
Proof.
  intros K Hl Hu. pose proof (kv_degree _ _ _ K). pose proof K as (L & ND & _).
  pose proof (proj1 (nd_sorted kv) ND) as S.
  assert (E1 : kn (qinsert x kv) p = kn kv p).
  { rewrite (kn_nth (qinsert x kv) _ 0%Qc) by (rewrite qinsert_len; lia).
    rewrite (kn_nth kv p 0%Qc) in * by lia. apply qinsert_nth_low; auto. lia. }
  assert (E2 : kn (qinsert x kv) (Datatypes.S m) = kn kv m).
  { rewrite (kn_nth (qinsert x kv) _ 0%Qc) by (rewrite qinsert_len; lia).
    rewrite (kn_nth kv m 0%Qc) in * by lia. apply qinsert_nth_high; auto. lia. }
  split; auto. split; [rewrite qinsert_len; lia|]. split.
  - apply nd_sorted. now apply qinsert_sorted.
  - rewrite E1, E2. qlra.
Qed.

Lemma requests_nodup x ks : NoDup ks -> In x ks -> requests x ks = 1.
Proof. intros ND H. rewrite requests_count. now apply NoDup_count_occ'. Qed.

Section Refine.
Variables (ins : list Qc -> Qc -> nat -> list Qc) (p : nat).
Hypothesis HI : inserts_new ins.

Lemma guarded_new m kv x :
  knot_vector p m kv -> (kn kv p < x)%Qc -> (x < kn kv m)%Qc -> ~ In x kv ->
  guarded_insert ins p kv x 1 = (qinsert x kv, 1).
Proof.
  intros K Hl Hu Hx. pose proof (kv_degree _ _ _ K). pose proof K as (L & ND & _).
  pose proof (kn_mono kv ND) as M. unfold guarded_insert. replace (length kv - p - 1) with m by lia.
  destruct (qleb_spec x (kn kv p)) as [G|_]; [exfalso; qlra|].
  destruct (qleb_spec (kn kv m) x) as [G|_]; [exfalso; qlra|]. cbn [orb].
  destruct (HI kv x ND Hx) as [S P].
  { pose proof (M 0 p ltac:(lia)). qlra. }
  { pose proof (M m (length kv - 1) ltac:(lia)). qlra. }
  assert (E : ins kv x 1 = qinsert x kv).
  { apply sorted_perm_eq.
    - now apply nd_sorted.
    - now apply qinsert_sorted, nd_sorted.
    - etransitivity; [exact P|]. symmetry. apply qinsert_perm. }
  rewrite E. f_equal. rewrite qinsert_len. lia.
Qed.

Lemma feed_new ks us m kv :
  NoDup ks -> incl us ks -> StronglySorted Qclt us -> knot_vector p m kv ->
  (forall x, In x us -> (kn kv p < x)%Qc /\ (x < kn kv m)%Qc /\ ~ In x kv) ->
  let kv' := feed (guarded_insert ins p) ks us kv in
  qsorted kv' /\ Permutation kv' (kv ++ us) /\
  forall x, In x us -> added (guarded_insert ins p) ks us kv x = 1.
Proof.
  intros NDk I S; revert m kv; induction S as [|x l S IH HF]; intros m kv K H; cbn [feed added].
  - rewrite app_nil_r. split; [apply nd_sorted, K|]. split; auto. easy.
  - rewrite (requests_nodup x ks) by (auto; apply I; now left).
    destruct (H x (or_introl eq_refl)) as (Hl & Hu & Hx).
    rewrite (guarded_new m kv x) by auto. cbn [fst snd].
    destruct (qinsert_kv p m kv x K Hl Hu) as (K' & E1 & E2).
    rewrite Forall_forall in HF.
    destruct (IH ltac:(intros z Hz; apply I; now right) (Datatypes.S m) (qinsert x kv) K') as (S1 & P1 & A1).
    { intros y Hy. rewrite E1, E2. destruct (H y (or_intror Hy)) as (Hl' & Hu' & Hy'). repeat split; auto.
      intros G. eapply Permutation_in in G; [|apply qinsert_perm]. destruct G as [->|G]; auto.
      specialize (HF y Hy). clear -HF. qlra. }
    split; auto. split.
    + etransitivity; [exact P1|]. rewrite (Permutation_app_tail l (qinsert_perm x kv)). cbn.
      apply Permutation_middle.
    + intros y Hy. destruct (qeqb_spec y x) as [->|Hne]; auto. destruct Hy; [congruence|auto].
Qed.

Lemma qmax_ub l x : In x l -> (x <= qmax_list l)%Qc.
Proof.
  unfold qmax_list. generalize (hd 0%Qc l). intros d. induction l as [|y l IH]; [easy|]. cbn [fold_right].
  set (F := fold_right _ _ _) in *. intros [->|H].
  - destruct (qleb_spec F x); [apply Qcle_refl|qlra].
  - specialize (IH H). destruct (qleb_spec F y); qlra.
Qed.
Lemma qmin_lb l x : In x l -> (qmin_list l <= x)%Qc.
Proof.
  unfold qmin_list. generalize (hd 0%Qc l). intros d. induction l as [|y l IH]; [easy|]. cbn [fold_right].
  set (F := fold_right _ _ _) in *. intros [->|H].
  - destruct (qleb_spec x F); [apply Qcle_refl|qlra].
  - specialize (IH H). destruct (qleb_spec y F); qlra.
Qed.
Lemma qmax_in l : l <> [] -> In (qmax_list l) l.
Proof.
  destruct l as [|z l]; [easy|]. intros _. unfold qmax_list. cbn [hd].
  assert (G : forall k, In (fold_right (fun x m => if qleb m x then x else m) z k) (z :: k)).
  { induction k as [|y k IH]; cbn; auto. destruct (qleb _ y); auto. destruct IH; auto. }
  specialize (G (z :: l)). destruct G as [G|G]; auto. now left.
Qed.
Lemma qmin_in l : l <> [] -> In (qmin_list l) l.
Proof.
  destruct l as [|z l]; [easy|]. intros _. unfold qmin_list. cbn [hd].
  assert (G : forall k, In (fold_right (fun x m => if qleb x m then x else m) z k) (z :: k)).
  { induction k as [|y k IH]; cbn; auto. destruct (qleb y _); auto. destruct IH; auto. }
  specialize (G (z :: l)). destruct G as [G|G]; auto. now left.
Qed.

Lemma insert_in_range {St} (kernel : St -> Qc -> nat -> St * nat) eps st kv ks lo hi :
  ks <> [] -> In lo kv -> In hi kv -> (forall x, In x ks -> (lo <= x)%Qc /\ (x <= hi)%Qc) ->
  insert_knots kernel eps st kv ks =
  match insert_knots_core kernel eps st ks with None => Undefined | Some (st, f) => Inserted st f end.
Proof.
  intros Hne Hlo Hhi H. unfold insert_knots. destruct ks as [|x ks]; [easy|].
  destruct (H _ (qmax_in (x :: ks) Hne)) as [_ H1]. destruct (H _ (qmin_in (x :: ks) Hne)) as [H2 _].
  pose proof (qmax_ub kv hi Hhi). pose proof (qmin_lb kv lo Hlo).
  destruct (qltb_spec (qmax_list kv) (qmax_list (x :: ks))) as [G|_]; [exfalso; qlra|].
  destruct (qltb_spec (qmin_list (x :: ks)) (qmin_list kv)) as [G|_]; [exfalso; qlra|]. reflexivity.
Qed.

(** C14 for one axis *)
Lemma refine_axis_spec epsk epsd m kv n :
  knot_vector p m kv -> (0 < epsk)%Qc -> (0 < epsd)%Qc ->
  (forall i, p <= i < m -> (kn kv i < kn kv (i + 1))%Qc ->
     (epsk <= kn kv (i + 1) - kn kv i)%Qc /\ (epsd * inj (n + 1) <= kn kv (i + 1) - kn kv i)%Qc) ->
  exists kv' new, refine_axis ins epsk epsd p kv n = Inserted kv' (repeat (Some true) (length new)) /\
    non_decreasing kv' /\ Permutation kv' (kv ++ new) /\ refines_spans p kv n new.
Proof.
  intros K Hk Hd Hsp. pose proof (kv_degree _ _ _ K) as Hpm. pose proof K as (L & ND & _).
  pose proof (kn_mono kv ND) as M.
  pose proof (spans_gap p m kv epsk K Hk ltac:(intros i Hi Hlt; now apply Hsp)) as Gk.
  pose proof (gap_pos n epsd Hd) as HdN.
  pose proof (spans_gap p m kv (epsd * inj (n + 1)) K HdN ltac:(intros i Hi Hlt; now apply Hsp)) as Gd.
  destruct (unique_knots_valid epsk p m kv Hk K) as (US & UE & UH & UL).
  { intros x y Hx Hy. apply (valid_in p m) in Hx; auto. apply (valid_in p m) in Hy; auto.
    destruct Hx as (i & Hi & ->), Hy as (j & Hj & ->).
    destruct (le_lt_dec i j) as [H|H].
    - destruct (Gk i j ltac:(lia) ltac:(lia)) as [E|E]; auto. right. rewrite qabs_le by (apply M; lia). qlra.
    - destruct (Gk j i ltac:(lia) ltac:(lia)) as [E|E]; auto. right. unfold qabs.
      destruct (Qclt_le_dec (kn kv i - kn kv j) 0); qlra. }
  set (us := unique_knots epsk p kv) in *. set (new := determine_new_knots us n).
  assert (UG : StronglySorted (fun x y => x + epsd * inj (n + 1) <= y)%Qc us).
  { apply ssorted_gap; auto. intros x y Hx Hy Hxy. apply UE in Hx. apply UE in Hy.
    destruct Hx as (i & Hi & ->), Hy as (j & Hj & ->).
    destruct (le_lt_dec i j) as [H|H].
    - destruct (Gd i j ltac:(lia) ltac:(lia)) as [E|E]; auto. exfalso. qlra.
    - pose proof (M j i ltac:(lia)). exfalso. qlra. }
  assert (NG : StronglySorted (fun x y => x + epsd <= y)%Qc new) by now apply new_gap.
  assert (NS : StronglySorted Qclt new) by now apply (gap_strict epsd).
  assert (Nin : forall x, In x new -> exists a b, In a us /\ In b us /\ (a < x)%Qc /\ (x < b)%Qc /\
             forall y, In y us -> (y <= a)%Qc \/ (b <= y)%Qc).
  { intros x Hx. unfold new in Hx. apply (new_between n epsd us x Hd UG) in Hx.
    destruct Hx as (l1 & a & b & l2 & E & Ha & Hb). exists a, b.
    split; [rewrite E; apply in_or_app; right; now left|].
    split; [rewrite E; apply in_or_app; right; right; now left|]. split; [qlra|]. split; [qlra|].
    intros y Hy. rewrite E in US, Hy. clear - US Hy. induction l1 as [|c l1 IH]; cbn in *.
    - inversion US as [|? ? S1 H1]; subst. inversion S1 as [|? ? S2 H2]; subst.
      destruct Hy as [->|[->|Hy]]; [left; apply Qcle_refl|right; apply Qcle_refl|].
      right. rewrite Forall_forall in H2. apply Qclt_le_weak. now apply H2.
    - inversion US as [|? ? S1 H1]; subst. destruct Hy as [->|Hy]; auto.
      left. rewrite Forall_forall in H1. apply Qclt_le_weak, H1. apply in_or_app. right. now left. }
  assert (Nin' : forall x, In x new -> (kn kv p < x)%Qc /\ (x < kn kv m)%Qc /\ ~ In x kv).
  { intros x Hx. destruct (Nin x Hx) as (a & b & Ha & Hb & Hax & Hxb & Hnb).
    assert (Hpa : (kn kv p <= a)%Qc) by (apply UE in Ha; destruct Ha as (i & Hi & ->); apply M; lia).
    assert (Hbm : (b <= kn kv m)%Qc) by (apply UE in Hb; destruct Hb as (i & Hi & ->); apply M; lia).
    repeat split; [qlra|qlra|]. intros G. destruct (In_nth _ _ 0%Qc G) as (i & Hi & Ei).
    rewrite <- (kn_nth kv i 0%Qc) in Ei by auto.
    destruct (le_lt_dec p i) as [Hp|Hp]; [destruct (le_lt_dec i m) as [Hm|Hm]|].
    - destruct (Hnb x); [apply UE; exists i; split; [lia|auto]|qlra|qlra].
    - pose proof (M m i ltac:(lia)). qlra.
    - pose proof (M i p ltac:(lia)). qlra. }
  assert (RS : refines_spans p kv n new).
  { split.
    - intros i Hi Hlt. replace (length kv - p - 1) with m in Hi by lia.
      destruct (neighbours us (kn kv i) (kn kv (i + 1))) as (l1 & l2 & E); auto.
      + apply UE. exists i. split; [lia|auto].
      + apply UE. exists (i + 1). split; [lia|auto].
      + intros x Hx. apply UE in Hx. destruct Hx as (j & Hj & ->).
        destruct (le_lt_dec j i); [left|right]; apply M; lia.
      + unfold new. rewrite E in UG |- *. now apply (new_filter n epsd).
    - intros x Hx. destruct (Nin' x Hx) as (H1 & H2 & H3). replace (length kv - p - 1) with m by lia.
      destruct (find_span_spec kv p m x) as (Hs & Hs' & _ & H4 & H5); auto.
      { split; qlra. }
      exists (find_span kv p m x). split; [lia|]. replace (find_span kv p m x + 1) with (S (find_span kv p m x)) by lia.
      split.
      + apply Qcle_lt_or_eq in H4. destruct H4 as [H4|H4]; auto. exfalso. apply H3. rewrite <- H4.
        rewrite (kn_nth kv _ 0%Qc) by lia. apply nth_In. lia.
      + destruct H5 as [|[H5 H6]]; auto. exfalso. rewrite <- H5 in H6. qlra. }
  unfold refine_axis. fold us. fold new.
  destruct new as [|x0 new0] eqn:En.
  { exists kv, []. rewrite app_nil_r. cbn. auto. }
  rewrite <- En in *. assert (Hne : new <> []) by (rewrite En; easy).
  assert (NDn : NoDup new).
  { clear -NS. induction NS as [|x l S IH HF]; constructor; auto. intros G. rewrite Forall_forall in HF.
    specialize (HF x G). qlra. }
  rewrite (insert_in_range _ _ _ _ _ (kn kv p) (kn kv m)); auto.
  2,3: rewrite (kn_nth kv _ 0%Qc) by lia; apply nth_In; lia.
  2:{ intros x Hx. destruct (Nin' x Hx) as (H1 & H2 & _). split; qlra. }
  destruct (insert_core_spec (guarded_insert ins p) epsd kv new new Hd) as (f & R & Lf & F); auto.
  { now apply gap_apart. }
  { reflexivity. }
  rewrite R. destruct (feed_new new new m kv NDn (incl_refl _) NS K Nin') as (S1 & P1 & A1).
  eexists _, new. split; [|split; [apply nd_sorted, S1|split; [exact P1|exact RS]]].
  f_equal. apply nth_ext with (d := None) (d' := None).
  - now rewrite repeat_length.
  - intros i Hi. rewrite Lf in Hi. rewrite F by auto.
    rewrite A1 by (now apply nth_In).
    assert (E0 : requests (nth i new 0%Qc) (firstn i new) = 0).
    { destruct (requests (nth i new 0%Qc) (firstn i new)) eqn:Er; auto. exfalso.
      assert (G : In (nth i new 0%Qc) (firstn i new)) by (apply requests_in; lia).
      destruct (In_nth _ _ 0%Qc G) as (j & Hj & Ej). rewrite firstn_length in Hj.
      rewrite nth_firstn in Ej by lia. rewrite NoDup_nth in NDn. specialize (NDn j i ltac:(lia) Hi Ej). lia. }
    rewrite E0. symmetry. rewrite nth_indep with (d' := Some true) by now rewrite repeat_length.
    now rewrite nth_repeat.
Qed.
End Refine.
