(** Proofs about extract.bases: the parametric view of the same degrees and knots. *)
From Coq Require Import List Arith ZArith Bool QArith Qcanon Lia Sorted Permutation.
From Verif Require Import Base BaseRadix BaseQc BaseSort S_Grid S_Spline S_Value P_Grid P_Spline P_Value M_Core S_Core S_Files M_Bezier P_Bezier M_Create S_Create P_Create P_Shapes M_Elevate S_Elevate P_Elevate S_SubSpline M_SubSpline P_SubSpline P_SubCut P_SubRounds P_View S_Integrate S_Mapper P_Mapper M_Bases P_Bases S_Bases.
Import ListNotations.
Local Open Scope list_scope.
Local Open Scope nat_scope.

Record ident (limit n : nat) (v : spline) : Prop := Ident {
  id_sound : sound limit n v;
  id_weights : sp_weights v = None;
  id_value : forall us d, sp_domain v us -> d < n -> sp_value v us d = nth d us 0%Qc }.

Lemma ident_replace limit n v v' pre a a' post : ident limit n v -> sp_axes v = pre ++ a :: post -> sp_axes v' = pre ++ a' :: post ->
  ax_lower a = ax_lower a' -> ax_upper a = ax_upper a' -> sound limit n v' -> sp_weights v' = None ->
  (forall us d, sp_domain v us -> d < n -> sp_value v' us d = sp_value v us d) -> ident limit n v'.
Proof.
  intros I E E' L U So W V. constructor; auto. intros us d D Hd.
  assert (sp_domain v us) as D0. { unfold sp_domain in *. rewrite E. rewrite E' in D. revert D. now apply domain_same. }
  rewrite V by auto. now apply (id_value _ _ _ I).
Qed.

Lemma nth_repeat_lt {A} (x d : A) n i : i < n -> nth i (repeat x n) d = x.
Proof. intros H. rewrite (nth_indep _ d x) by (rewrite repeat_length; auto). apply nth_repeat. Qed.
Lemma span_ends q x y : ax_lower (KnotAxis q (repeat x (q + 1) ++ repeat y (q + 1))) = x /\ ax_upper (KnotAxis q (repeat x (q + 1) ++ repeat y (q + 1))) = y.
Proof.
  unfold ax_lower, ax_upper, ax_n, kn. rewrite app_length, !repeat_length. split.
  - rewrite app_nth1 by (rewrite repeat_length; lia). apply nth_repeat_lt. lia.
  - rewrite app_nth2 by (rewrite repeat_length; lia). rewrite repeat_length. apply nth_repeat_lt. lia.
Qed.
Lemma elevated_span m a : one_span a -> one_span (elevated_axis m a) /\ ax_lower (elevated_axis m a) = ax_lower a /\ ax_upper (elevated_axis m a) = ax_upper a.
Proof.
  destruct a as [p|p kv]; [cbn; auto|]. intros (L & E). unfold elevated_axis. destruct (span_ends (p + m) (ax_lower (KnotAxis p kv)) (ax_upper (KnotAxis p kv))) as [A B].
  split; [|auto]. unfold one_span. rewrite A, B. auto.
Qed.
Lemma elevated_0 a : one_span a -> elevated_axis 0 a = a.
Proof. destruct a as [p|p kv]; unfold elevated_axis, one_span; rewrite ?Nat.add_0_r; [auto|]. intros (_ & E). now rewrite <- E. Qed.

Lemma split_nth {A} (l : list A) k a : nth_error l k = Some a -> l = firstn k l ++ a :: skipn (S k) l.
Proof. revert k. induction l as [|x l IH]; intros [|k] H; cbn in *; try easy; [now injection H as ->|]. f_equal. now apply IH. Qed.
Lemma nth_error_replaced {A} (l : list A) k a b i : nth_error l k = Some a ->
  nth_error (firstn k l ++ b :: skipn (S k) l) i = if i =? k then Some b else nth_error l i.
Proof.
  revert k i. induction l as [|x l IH]; intros [|k] [|i] H; cbn [nth_error firstn app] in *; try easy.
  change (nth_error (firstn k l ++ b :: skipn (S k) l) i = if i =? k then Some b else nth_error l i). now apply IH.
Qed.

Section Elev.
Variables (limit n : nat) (elev : spline -> nat -> nat -> spline).
Hypothesis EL : elevates_spans elev.

Lemma elevate_list_ident dims uz : StronglySorted Z.lt uz -> forall v, Forall (valid_dim v) uz -> ident limit n v -> Forall one_span (sp_axes v) ->
  exists v', elevate_list elev dims uz v = Elevated v' /\ ident limit n v' /\
    forall i, nth_error (sp_axes v') i = option_map (elevated_axis (if in_dec Z.eq_dec (Z.of_nat i) uz then asked dims i else 0)) (nth_error (sp_axes v) i).
Proof.
  induction 1 as [|z uz SS IH F]; intros v V I O; cbn [elevate_list].
  - exists v. split; [auto|]. split; [auto|]. intros i. cbn [in_dec]. destruct (in_dec _ _ []) as [[]|_].
    destruct (nth_error (sp_axes v) i) as [a|] eqn:E; [|auto]. cbn. apply nth_error_In in E. rewrite Forall_forall in O. now rewrite elevated_0 by auto.
  - inversion V as [|? ? [Z1 Z2] V']; subst. destruct (Z.ltb_spec z (Z.of_nat (length (sp_axes v)))); [|lia]. destruct (Z.ltb_spec z 0); [lia|]. cbn [negb orb].
    set (k := Z.to_nat z). set (m := count_occ Z.eq_dec dims z). assert (Z.of_nat k = z) as Ek by lia.
    destruct (nth_error (sp_axes v) k) as [a|] eqn:Ea; [|apply nth_error_None in Ea; lia].
    assert (one_span a) as Oa by (rewrite Forall_forall in O; apply O; eapply nth_error_In; eauto).
    destruct (EL limit n v k a m (id_sound _ _ _ I) (id_weights _ _ _ I) Ea Oa) as (A1 & A2 & A3 & A4).
    destruct (elevated_span m a Oa) as (O' & L' & U').
    destruct (IH (elev v k m)) as (v' & E1 & I1 & N1).
    + rewrite Forall_forall in *. intros y Hy. specialize (V' y Hy). unfold valid_dim in *. rewrite A1.
      rewrite (split_nth _ _ _ Ea), !app_length in V'. rewrite app_length. cbn [length] in *. lia.
    + apply (ident_replace limit n v (elev v k m) _ a (elevated_axis m a) _ I (split_nth _ _ _ Ea) A1); auto.
    + rewrite A1. pose proof O as O2. rewrite (split_nth _ _ _ Ea) in O2. apply Forall_app in O2 as [P1 P2]. inversion P2 as [|? ? P3 P4]. apply Forall_app. split; auto.
    + exists v'. split; [exact E1|]. split; [exact I1|]. intros i. rewrite N1, A1, (nth_error_replaced _ _ _ _ _ Ea).
      destruct (Nat.eqb_spec i k) as [->|Ni].
      * rewrite Ea. cbn [option_map]. rewrite Ek. destruct (in_dec Z.eq_dec z uz) as [G|G].
        { rewrite Forall_forall in F. specialize (F z G). lia. }
        destruct (in_dec Z.eq_dec z (z :: uz)) as [_|G']; [|exfalso; apply G'; now left].
        rewrite (elevated_0 (elevated_axis m a)) by auto. unfold asked. now rewrite Ek.
      * destruct (in_dec Z.eq_dec (Z.of_nat i) uz) as [G|G], (in_dec Z.eq_dec (Z.of_nat i) (z :: uz)) as [G'|G']; auto.
        { exfalso. apply G'. now right. }
        { destruct G' as [G'|G']; [lia|easy]. }
Qed.
End Elev.

(** ** Degrees *)
Definition lin (a : paxis) : paxis :=
  match a with BezierAxis _ => BezierAxis 1 | KnotAxis _ _ => KnotAxis 1 (repeat (ax_lower a) 2 ++ repeat (ax_upper a) 2) end.
Definition span (a : paxis) : paxis :=
  match a with BezierAxis p => BezierAxis p | KnotAxis p _ => KnotAxis p (repeat (ax_lower a) (p + 1) ++ repeat (ax_upper a) (p + 1)) end.
Lemma lin_span a : (ax_lower a < ax_upper a)%Qc -> one_span (lin a) /\ ax_lower (lin a) = ax_lower a /\ ax_upper (lin a) = ax_upper a.
Proof.
  destruct a as [p|p kv]; [cbn; auto|]. intros H. unfold lin. destruct (span_ends 1 (ax_lower (KnotAxis p kv)) (ax_upper (KnotAxis p kv))) as [A B]. cbn [Nat.add] in A, B.
  split; [|auto]. unfold one_span. rewrite A, B. auto.
Qed.
Lemma lin_elevated a : 1 <= ax_degree a -> elevated_axis (ax_degree a - 1) (lin a) = span a.
Proof.
  destruct a as [p|p kv]; cbn [ax_degree lin span elevated_axis]; intros H; [f_equal; lia|].
  destruct (span_ends 1 (ax_lower (KnotAxis p kv)) (ax_upper (KnotAxis p kv))) as [A B]. cbn [Nat.add] in A, B. rewrite A, B. replace (1 + (p - 1)) with p by lia. reflexivity.
Qed.
Lemma lin_degree a : ax_degree (lin a) = 1.
Proof. now destruct a. Qed.

Lemma asked_query s v i : map ax_degree (sp_axes v) = repeat 1 (length (sp_axes s)) ->
  asked (degree_query s v) i = nth i (map ax_degree (sp_axes s)) 0 - 1.
Proof.
  intros E. unfold asked, degree_query.
  assert (forall l, NoDup l -> Forall (fun j => j < length (sp_axes s)) l ->
    count_occ Z.eq_dec (concat (map (fun j => repeat (Z.of_nat j) (nth j (map ax_degree (sp_axes s)) 0 - nth j (map ax_degree (sp_axes v)) 0)) l)) (Z.of_nat i) =
    if in_dec Nat.eq_dec i l then nth i (map ax_degree (sp_axes s)) 0 - 1 else 0) as G.
  { induction l as [|j l IH]; intros N F; [reflexivity|]. inversion N; inversion F; subst. cbn [map concat]. rewrite count_occ_app, IH by auto.
    rewrite E, nth_repeat_lt by auto. destruct (Nat.eq_dec j i) as [->|Nj].
    - rewrite count_occ_repeat_eq by auto. destruct (in_dec Nat.eq_dec i l); [easy|]. destruct (in_dec Nat.eq_dec i (i :: l)) as [_|X]; [lia|]. exfalso. apply X. now left.
    - rewrite count_occ_repeat_neq by lia. destruct (in_dec Nat.eq_dec i l), (in_dec Nat.eq_dec i (j :: l)) as [X|X]; cbn [Nat.add]; auto.
      + exfalso. apply X. now right.
      + destruct X; [lia|easy]. }
  rewrite G; [|apply seq_NoDup|apply Forall_forall; intros j Hj; apply in_seq in Hj; lia].
  destruct (in_dec Nat.eq_dec i (seq 0 (length (sp_axes s)))) as [_|X]; [auto|]. rewrite nth_overflow; [auto|]. rewrite map_length.
  destruct (Nat.le_gt_cases (length (sp_axes s)) i); auto. exfalso. apply X, in_seq. lia.
Qed.

Lemma elevated_view limit n elev s v : elevates_spans elev -> ident limit n v -> sp_axes v = map lin (sp_axes s) ->
  Forall (fun a => 1 <= ax_degree a /\ (ax_lower a < ax_upper a)%Qc) (sp_axes s) ->
  exists v', (if existsb (fun pq => negb (fst pq =? snd pq)) (combine (map ax_degree (sp_axes s)) (map ax_degree (sp_axes v)))
        then match elevate_core elev v (degree_query s v) with Some (Elevated v) => Some v | _ => None end
        else Some v) = Some v' /\ ident limit n v' /\ sp_axes v' = map span (sp_axes s).
Proof.
  intros EL I E F.
  assert (map ax_degree (sp_axes v) = repeat 1 (length (sp_axes s))) as Dv.
  { rewrite E, map_map. clear. induction (sp_axes s) as [|a l IH]; cbn; [auto|]. now rewrite lin_degree, IH. }
  assert (Forall one_span (sp_axes v)) as O.
  { rewrite E. apply Forall_map. eapply Forall_impl; [|exact F]. intros a [_ H]. apply (lin_span a H). }
  destruct (existsb _ _) eqn:X.
  - destruct (sorted_ints (degree_query s v)) as (uz & SS & Iu).
    assert (degree_query s v <> []) as NE.
    { apply existsb_exists in X as ((p & q) & HI & Hn). cbn [fst snd] in Hn. apply (In_nth _ _ (0, 0)) in HI as (i & Hi & Ei).
      rewrite combine_nth in Ei by (rewrite !map_length, E, map_length; auto). injection Ei as Ep Eq.
      rewrite combine_length, !map_length, E, map_length, Nat.min_id in Hi.
      intros Z0. pose proof (asked_query s v i Dv) as A. rewrite Z0 in A. cbn in A. rewrite Dv, nth_repeat_lt in Eq by auto.
      rewrite Forall_forall in F. destruct (nth_error (sp_axes s) i) as [a|] eqn:Ea; [|apply nth_error_None in Ea; lia].
      assert (nth i (map ax_degree (sp_axes s)) 0 = ax_degree a) as Na by (apply nth_error_nth; now rewrite nth_error_map, Ea).
      apply nth_error_In in Ea. destruct (F a Ea) as [H _]. destruct (Nat.eqb_spec p q); [easy|]. lia. }
    rewrite (elevate_core_eq elev v (degree_query s v) uz NE SS Iu).
    destruct (elevate_list_ident limit n elev EL (degree_query s v) uz SS v) as (v' & E1 & I1 & N1); auto.
    + apply Forall_forall. intros z Hz. apply Iu in Hz. unfold degree_query in Hz. apply in_concat in Hz as (l & Hl & Hz). apply in_map_iff in Hl as (i & <- & Hi).
      apply repeat_spec in Hz. apply in_seq in Hi. subst z. unfold valid_dim. rewrite E, map_length. lia.
    + rewrite E1. exists v'. split; [auto|]. split; [auto|].
      apply nth_error_ext. intros i. rewrite N1, E, !nth_error_map. destruct (nth_error (sp_axes s) i) as [a|] eqn:Ea; [|auto]. cbn [option_map]. f_equal.
      assert (nth i (map ax_degree (sp_axes s)) 0 = ax_degree a) as Na by (apply nth_error_nth; now rewrite nth_error_map, Ea).
      rewrite Forall_forall in F. apply nth_error_In in Ea. destruct (F a Ea) as [H HL]. pose proof (asked_query s v i Dv) as A. rewrite Na in A.
      destruct (in_dec Z.eq_dec (Z.of_nat i) uz) as [G|G]; [rewrite A; now apply lin_elevated|].
      rewrite <- (lin_elevated a H), <- A. f_equal. symmetry. apply count_occ_not_In. intros K. apply G, Iu, K.
  - exists v. split; [auto|]. split; [auto|]. rewrite E. apply map_ext_in. intros a Ha. rewrite Forall_forall in F. destruct (F a Ha) as [H HL].
    rewrite <- lin_elevated by auto. replace (ax_degree a - 1) with 0; [symmetry; apply elevated_0, (lin_span a HL)|].
    destruct (Nat.eq_dec (ax_degree a) 1); [lia|]. exfalso.
    apply (In_nth_error) in Ha as (i & Ei). assert (i < length (sp_axes s)) as Hi by (apply nth_error_Some; congruence).
    assert (existsb (fun pq => negb (fst pq =? snd pq)) (combine (map ax_degree (sp_axes s)) (map ax_degree (sp_axes v))) = true); [|congruence].
    apply existsb_exists. exists (ax_degree a, 1). split; [|cbn; destruct (Nat.eqb_spec (ax_degree a) 1); auto].
    replace (ax_degree a, 1) with (nth i (combine (map ax_degree (sp_axes s)) (map ax_degree (sp_axes v))) (0, 0)).
    + apply nth_In. rewrite combine_length, !map_length, E, map_length. lia.
    + rewrite combine_nth by (rewrite !map_length, E, map_length; auto). rewrite Dv, nth_repeat_lt by auto. f_equal. apply nth_error_nth. now rewrite nth_error_map, Ei.
Qed.

(** ** Knots *)
Definition hd_knots (l : list paxis) : Prop := match l with BezierAxis _ :: _ => False | _ => True end.
Lemma hd_kvs v pre p K post : sp_axes v = pre ++ KnotAxis p K :: post -> hd_knots pre -> has_kvs v = true.
Proof. intros E H. unfold has_kvs. rewrite E. destruct pre as [|[q|q k] pre]; cbn in *; easy. Qed.

Lemma sorted_two a b n m : (a <= b)%Qc -> StronglySorted Qcle (repeat a n ++ repeat b m).
Proof.
  intros H. assert (forall l, StronglySorted Qcle l -> Forall (fun y => a <= y)%Qc l -> StronglySorted Qcle (repeat a n ++ l)) as G.
  { intros l SL F. induction n as [|n IH]; cbn [repeat app]; [auto|]. constructor; auto. apply Forall_app. split; auto.
    apply Forall_forall. intros y Y. apply repeat_spec in Y. subst. apply Qcle_refl. }
  apply G.
  - induction m as [|m IH]; cbn [repeat]; constructor; auto. apply Forall_forall. intros y Y. apply repeat_spec in Y. subst. apply Qcle_refl.
  - apply Forall_forall. intros y Y. apply repeat_spec in Y. now subst.
Qed.
Lemma two_shape p a b : (a < b)%Qc -> shape p a b (repeat a (p + 1) ++ repeat b (p + 1)).
Proof.
  intros AB. constructor; auto.
  - apply sorted_two. qlra.
  - rewrite times_app, times_repeat, times_none; [lia|]. intros X. apply repeat_spec in X. subst. qlra.
  - rewrite times_app, times_repeat, times_none; [lia|]. intros X. apply repeat_spec in X. subst. qlra.
  - apply Forall_app. split; apply Forall_forall; intros y Y; apply repeat_spec in Y; subst; split; qlra.
Qed.

Section Insert.
Variables (limit n : nat) (tol : Qc) (ins : spline -> nat -> Qc -> spline) (p : nat) (kv : list Qc) (a b : Qc) (pre post : list paxis).
Hypothesis RM : raises_multiplicity tol ins.
Hypothesis Hp : 1 <= p.
Hypothesis Sh : shape p a b kv.
Hypothesis Cl : forall x, In x kv -> clear_of tol kv x.
Hypothesis Tm : forall x, (a < x)%Qc -> (x < b)%Qc -> times x kv <= p.
Hypothesis Hd : hd_knots pre.

Lemma insert_all xs : forall K v, ident limit n v -> sp_axes v = pre ++ KnotAxis p K :: post -> shape p a b K -> Permutation (K ++ xs) kv ->
  Forall (fun x => a < x /\ x < b)%Qc xs ->
  ident limit n (fold_left (fun s x => ins s (length pre) x) xs v) /\ sp_axes (fold_left (fun s x => ins s (length pre) x) xs v) = pre ++ KnotAxis p kv :: post.
Proof.
  induction xs as [|x xs IH]; intros K v I E SK P F; cbn [fold_left].
  - split; [auto|]. rewrite app_nil_r in P. rewrite E. repeat f_equal. apply sorted_perm_eq; auto; [apply SK|apply Sh].
  - inversion F as [|? ? [Ax Bx] F']. subst.
    destruct (shape_wf p a b K SK) as (W & C & Lo & Up).
    assert (In x kv) as Ix. { apply (Permutation_in _ P), in_or_app. right. now left. }
    assert (clear_of tol K x) as Ck. { intros y Y. apply (Cl x Ix). apply (Permutation_in _ P), in_or_app. now left. }
    assert (times x K <= p) as Tk.
    { pose proof (Tm x Ax Bx) as T1. unfold times in *. rewrite <- (proj1 (Permutation_count_occ Qc_eq_dec (K ++ x :: xs) kv) P x), count_occ_app in T1. lia. }
    assert (nth_error (sp_axes v) (length pre) = Some (KnotAxis p K)) as En by (rewrite E; now apply nth_middle_error).
    destruct (RM limit n v (length pre) p K x (id_sound _ _ _ I) En Hp C (hd_kvs v pre p K post E Hd) Ck) as [_ R].
    rewrite Lo, Up in R. destruct (R Tk Ax Bx) as (l1 & l2 & EK & F1 & F2 & Ea & Sd & Kd & V). clear R.
    destruct (firstn_skipn_mid pre (KnotAxis p K) post) as [X1 X2]. rewrite E, X1, X2 in Ea.
    assert (shape p a b (l1 ++ x :: l2)) as SK' by (apply shape_insert; auto; now rewrite <- EK).
    destruct (shape_wf p a b _ SK') as (_ & _ & Lo' & Up').
    apply (IH (l1 ++ x :: l2)); auto.
    + apply (ident_replace limit n v _ pre (KnotAxis p K) (KnotAxis p (l1 ++ x :: l2)) post I E Ea); auto; try congruence. now apply Kd, (id_weights _ _ _ I).
    + rewrite <- P, EK, <- !app_assoc. apply Permutation_app_head. cbn [app]. apply Permutation_middle.
Qed.

Lemma insert_axis v : ident limit n v -> sp_axes v = pre ++ span (KnotAxis p kv) :: post -> ax_lower (KnotAxis p kv) = a -> ax_upper (KnotAxis p kv) = b ->
  exists v', match inner_query (KnotAxis p kv) with [] => Some v | q => insert_knots ins v (length pre) q end = Some v' /\
    ident limit n v' /\ sp_axes v' = pre ++ KnotAxis p kv :: post.
Proof.
  intros I E La Ub. unfold span in E. rewrite La, Ub in E. destruct (shape_parts p a b kv Sh) as (m & Em & Fm).
  pose proof (sh_lt _ _ _ _ Sh) as AB.
  assert (inner_query (KnotAxis p kv) = m) as Eq.
  { unfold inner_query. rewrite Em. rewrite !app_length, !repeat_length. replace (p + 1 + (length m + (p + 1)) - (p + 1) - (p + 1)) with (length m) by lia.
    rewrite skipn_app, repeat_length, Nat.sub_diag, skipn_all2 by (rewrite repeat_length; lia). cbn [skipn app].
    rewrite firstn_app, Nat.sub_diag, firstn_all. cbn [firstn]. apply app_nil_r. }
  set (K := repeat a (p + 1) ++ repeat b (p + 1)) in *.
  assert (shape p a b K) as SK.
  { now apply two_shape. }
  assert (Permutation (K ++ m) kv) as P.
  { rewrite Em. unfold K. rewrite <- app_assoc. apply Permutation_app_head, Permutation_app_comm. }
  destruct (insert_all m K v I E SK P Fm) as [I' E']. rewrite Eq.
  destruct m as [|x m].
  { exists v. split; [auto|]. split; [exact I|exact E']. }
  exists (fold_left (fun s x => ins s (length pre) x) (x :: m) v). split; [|auto].
  unfold insert_knots. rewrite E, (nth_middle_error pre _ post (length pre) eq_refl). cbn [ax_kv].
  replace (forallb _ (x :: m)) with true; [reflexivity|]. symmetry. apply forallb_forall. intros y Hy. rewrite Forall_forall in Fm. destruct (Fm y Hy) as [A B].
  apply andb_true_intro. split; apply existsb_exists.
  - exists b. split; [apply times_in; rewrite (sh_high _ _ _ _ SK); lia|]. destruct (qleb_spec y b) as [|G]; auto. exfalso. apply G. now apply Qclt_le_weak.
  - exists a. split; [apply times_in; rewrite (sh_low _ _ _ _ SK); lia|]. destruct (qleb_spec a y) as [|G]; auto. exfalso. apply G. now apply Qclt_le_weak.
Qed.
End Insert.

Lemma insert_loop_view limit n tol ins rest : raises_multiplicity tol ins -> Forall (viewable tol) rest -> Forall ax_wf rest -> Forall (fun a => match a with KnotAxis _ _ => True | _ => False end) rest ->
  forall pre v, ident limit n v -> hd_knots pre -> sp_axes v = pre ++ map span rest ->
  exists v', fold_left (fun v iq => match v with
                               | None => None
                               | Some v => match snd iq with [] => Some v | q => insert_knots ins v (fst iq) q end
                               end)
          (combine (seq (length pre) (length rest)) (map inner_query rest)) (Some v) = Some v' /\ ident limit n v' /\ sp_axes v' = pre ++ rest.
Proof.
  intros RM. induction rest as [|x rest IH]; intros FV FW FK pre v I H E.
  - exists v. split; [reflexivity|]. auto.
  - inversion FV as [|? ? V1 FV']; inversion FW as [|? ? W1 FW']; inversion FK as [|? ? K1 FK']; subst. destruct x as [p|p kv]; [easy|].
    destruct V1 as (Hp & C & Cl & Tm). cbn [ax_degree] in Hp. pose proof (shape_clamped p kv W1 C) as Sh.
    destruct (insert_axis limit n tol ins p kv _ _ pre (map span rest) RM Hp Sh Cl Tm H v I E eq_refl eq_refl) as (v1 & E1 & I1 & A1).
    cbn [length seq map combine fold_left fst snd]. rewrite E1.
    destruct (IH FV' FW' FK' (pre ++ [KnotAxis p kv]) v1) as (v2 & E2 & I2 & A2); auto.
    + destruct pre as [|[q|q k] pre]; cbn in *; auto.
    + rewrite A1, <- app_assoc. reflexivity.
    + rewrite app_length in E2. cbn [length] in E2. rewrite Nat.add_1_r in E2. exists v2. split; [exact E2|]. split; [auto|]. rewrite A2, <- app_assoc. reflexivity.
Qed.

(** ** The start *)
Lemma start_axis_knots a : (ax_lower a < ax_upper a)%Qc -> axis_knots (segment (ax_lower a, ax_upper a)) [ax_lower a; ax_upper a].
Proof.
  intros H. split; [repeat constructor; exact H|]. exists [2; 2]. cbn. repeat split; auto; repeat constructor; lia.
Qed.
Lemma lower_upper a : ax_wf a -> (ax_lower a < ax_upper a)%Qc.
Proof. destruct a as [p|p kv]; cbn; [intros _; reflexivity|]. intros (_ & _ & H). exact H. Qed.

Lemma start_view limit dim s : sound limit dim s -> sp_weights s = None ->
  exists v0, from_bounds limit (map ax_lower (sp_axes s)) (map ax_upper (sp_axes s)) (map ax_lower (sp_axes s)) (map ax_upper (sp_axes s)) = Some v0 /\
    let v := if has_knot_vectors s then v0 else Spl (map (fun a => BezierAxis (ax_degree a)) (sp_axes v0)) (sp_cps v0) (sp_weights v0) in
    ident limit (length (sp_axes s)) v /\ sp_axes v = map lin (sp_axes s).
Proof.
  intros (St & Wf & Fr & _) _. destruct (kinds limit dim s St Fr) as (K & L & N). destruct Wf as (FW & _).
  set (knots := map (fun a => [ax_lower a; ax_upper a]) (sp_axes s)). set (axes := map (fun a => segment (ax_lower a, ax_upper a)) (sp_axes s)).
  assert (length knots = length (sp_axes s)) as Lk by apply map_length.
  assert (0 < length (sp_axes s)) as Pos by (destruct (sp_axes s); [easy|cbn; lia]).
  destruct (view_start limit axes knots) as (v0 & E0 & (A & W & U & Ew & Ed & V)).
  - unfold axes, knots. clear - FW. induction FW as [|a l H F IH]; cbn [map]; constructor; auto. apply start_axis_knots, lower_upper, H.
  - lia.
  - unfold knots. apply Forall_map, Forall_forall. intros a Ha. cbn [nth]. rewrite Forall_forall in K, FW. specialize (K a Ha). specialize (FW a Ha).
    destruct a as [p|p kv]; cbn [ax_lower]; [discriminate|]. destruct K as (_ & _ & F). rewrite Forall_forall in F. apply F, kn_in.
    pose proof (ax_n_degree _ FW) as Hn. cbn [ax_degree] in Hn. unfold ax_n in Hn. lia.
  - unfold axes in E0. rewrite !map_map in E0. cbn [fst snd] in E0. change (map (fun x => ax_lower (segment (ax_lower x, ax_upper x))) (sp_axes s)) with (map ax_lower (sp_axes s)) in E0.
    change (map (fun x => ax_upper (segment (ax_lower x, ax_upper x))) (sp_axes s)) with (map ax_upper (sp_axes s)) in E0.
    exists v0. split; [exact E0|]. cbn [map app length Nat.add] in A, Ed, V. rewrite Lk in Ed, V.
    assert (sp_axes v0 = axes) as A' by (rewrite A; unfold knots, axes; now rewrite map_map). clear A.
    unfold uniform in U. rewrite Ed in U.
    assert (length (sp_cps v0) = prodn (map ax_n (sp_axes v0))) as Lc by (destruct W as (_ & Lc & _); now rewrite fold_right_mul_prodn in Lc).
    destruct (has_knot_vectors s) eqn:HK; cbv zeta.
    + assert (Forall (fun a => match a with KnotAxis _ _ => True | _ => False end) (sp_axes s)) as FK.
      { destruct (has_kvs s) eqn:Hs; [eapply Forall_impl; [|exact K]; intros [q|q k]; cbn; auto; now intros []|].
        exfalso. unfold has_kvs, has_knot_vectors in *. destruct (sp_axes s) as [|[q|q k] l]; easy. }
      assert (axes = map lin (sp_axes s)) as EA.
      { unfold axes. apply map_ext_in. intros a Ha. rewrite Forall_forall in FK. specialize (FK a Ha). destruct a; [easy|reflexivity]. }
      split; [|now rewrite A', EA]. constructor; auto. split; [|split; [exact W|split; [exact U|now rewrite Ew]]].
      assert (has_kvs v0 = true) as H0. { unfold has_kvs. rewrite A'. unfold axes. destruct (sp_axes s); [easy|reflexivity]. }
      destruct (build limit (length (sp_axes s)) v0 (sp_axes v0) (sp_cps v0) None) as [_ Stv]; auto; try easy.
      * rewrite A'. unfold axes. now destruct (sp_axes s).
      * rewrite A'. unfold axes. now rewrite map_length.
      * rewrite H0, A'. unfold axes. apply Forall_map, Forall_forall. intros a Ha. rewrite Forall_forall in K, FW, FK. specialize (K a Ha). specialize (FW a Ha). specialize (FK a Ha).
        pose proof (lower_upper a FW) as LU. destruct a as [p|p kv]; [easy|]. destruct K as (_ & _ & F).
        assert (qc (-1) 1 <= ax_lower (KnotAxis p kv))%Qc as B1.
        { rewrite Forall_forall in F. cbn [ax_lower]. apply F, kn_in. pose proof (ax_n_degree _ FW) as Hn. cbn [ax_degree] in Hn. unfold ax_n in Hn. lia. }
        assert (qc (-1) 1 <= ax_upper (KnotAxis p kv))%Qc as B2 by (eapply Qcle_trans; [exact B1|]; now apply Qclt_le_weak).
        cbn [segment of_kind fst snd]. split; [auto|]. split.
        { split; [lia|]. split; [|cbn; lia]. destruct (shape_wf _ _ _ _ (two_shape 1 _ _ LU)) as ((_ & ND & _) & _). exact ND. }
        repeat constructor; auto.
      * destruct v0 as [ax c w]. cbn [sp_axes sp_cps sp_weights] in *. now subst w.
    + assert (Forall (fun a => match a with KnotAxis _ _ => False | _ => True end) (sp_axes s)) as FK.
      { destruct (has_kvs s) eqn:Hs; [|eapply Forall_impl; [|exact K]; intros [q|q k]; cbn; auto; now intros []].
        exfalso. unfold has_kvs, has_knot_vectors in *. destruct (sp_axes s) as [|[q|q k] l]; easy. }
      set (v := Spl _ _ _).
      assert (sp_axes v = map (fun _ => BezierAxis 1) (sp_axes s)) as EA.
      { unfold v. cbn [sp_axes]. rewrite A'. unfold axes. rewrite map_map. reflexivity. }
      assert (map (fun _ => BezierAxis 1) (sp_axes s) = map lin (sp_axes s)) as EL.
      { apply map_ext_in. intros a Ha. rewrite Forall_forall in FK. specialize (FK a Ha). now destruct a. }
      split; [|now rewrite EA].
      assert (axes = map (fun _ => KnotAxis 1 (bezier_knots 1)) (sp_axes s)) as EB.
      { unfold axes. apply map_ext_in. intros a Ha. rewrite Forall_forall in FK. specialize (FK a Ha). now destruct a. }
      assert (Lv : length (sp_cps v) = prodn (sp_res v)).
      { unfold sp_res. rewrite EA. change (sp_cps v) with (sp_cps v0). rewrite Lc, A', EB, !map_map. reflexivity. }
      constructor.
      * split; [|split; [|split; [exact U|unfold v; cbn [sp_weights]; now rewrite Ew]]].
        { assert (has_kvs v = false) as H0. { unfold has_kvs. rewrite EA. destruct (sp_axes s); [easy|reflexivity]. }
          destruct (build limit (length (sp_axes s)) v (sp_axes v) (sp_cps v) None) as [_ Stv]; auto; try easy.
          - rewrite EA. now destruct (sp_axes s).
          - rewrite EA. now rewrite map_length.
          - rewrite H0, EA. apply Forall_map, Forall_forall. intros a Ha. cbn. auto.
          - unfold v in *. cbn [sp_axes sp_cps sp_weights] in *. now rewrite Ew. }
        { split; [rewrite EA; apply Forall_map, Forall_forall; cbn; auto|]. split; [now rewrite fold_right_mul_prodn|]. unfold v; cbn [sp_weights]. now rewrite Ew. }
      * unfold v. cbn [sp_weights]. exact Ew.
      * intros us d D Hd. assert (length us = length (sp_axes s)) as Lu.
        { unfold sp_domain in D. rewrite EA in D. apply Forall2_len in D. now rewrite map_length in D. }
        rewrite <- (V us d); auto.
        -- unfold v. destruct v0 as [ax c w]. cbn [sp_axes sp_cps sp_weights] in *. subst w ax. unfold v in EA. cbn [sp_axes] in EA. rewrite EA, EB.
           apply value_axes_ext; rewrite ?map_length; auto. clear - Lu. revert us Lu. induction (sp_axes s) as [|a l IH]; intros [|u us] Lu; cbn in Lu; try easy; cbn [map combine]; constructor; auto.
           cbn [fst snd]. split; [reflexivity|]. intros i Hi. symmetry. apply bezier_knots_fun. exact Hi.
        -- unfold sp_domain in *. rewrite A', EB. rewrite EA in D. revert D. clear. revert us. induction (sp_axes s) as [|a l IH]; intros us D; inversion D; subst; cbn [map]; constructor; auto.
Qed.

Lemma conform_view_exact limit dim tol elev ins s : elevates_spans elev -> raises_multiplicity tol ins ->
  sound limit dim s -> sp_weights s = None -> Forall (viewable tol) (sp_axes s) ->
  exists v, conform_view limit elev ins s = Some v /\ ident limit (length (sp_axes s)) v /\ sp_axes v = sp_axes s.
Proof.
  intros EL RM So W0 FV. destruct (start_view limit dim s So W0) as (v0 & E0 & I & A). pose proof So as (St & (FW & _) & Fr & _).
  destruct (kinds limit dim s St Fr) as (K & L & N).
  unfold conform_view. cbv zeta. rewrite E0. unfold is_rational. rewrite W0. cbv zeta in I, A. set (v := if has_knot_vectors s then v0 else _) in *.
  destruct (elevated_view limit (length (sp_axes s)) elev s v EL I A) as (v1 & E1 & I1 & A1).
  { apply Forall_forall. intros a Ha. rewrite Forall_forall in FV, FW. split; [apply (FV a Ha)|apply lower_upper, FW, Ha]. }
  rewrite E1. destruct (has_knot_vectors s) eqn:HK.
  - assert (Forall (fun a => match a with KnotAxis _ _ => True | _ => False end) (sp_axes s)) as FK.
    { destruct (has_kvs s) eqn:Hs; [eapply Forall_impl; [|exact K]; intros [q|q k]; cbn; auto; now intros []|].
      exfalso. unfold has_kvs, has_knot_vectors in *. destruct (sp_axes s) as [|[q|q k] l]; easy. }
    destruct (insert_loop_view limit (length (sp_axes s)) tol ins (sp_axes s) RM FV FW FK [] v1 I1 Logic.I A1) as (v2 & E2 & I2 & A2).
    cbn [length app] in E2, A2. rewrite E2. exists v2. auto.
  - exists v1. split; [auto|]. split; [auto|]. rewrite A1. rewrite <- map_id. apply map_ext_in. intros a Ha.
    destruct (has_kvs s) eqn:Hs.
    + exfalso. unfold has_kvs, has_knot_vectors in *. destruct (sp_axes s) as [|[q|q k] l]; easy.
    + rewrite Forall_forall in K. specialize (K a Ha). destruct a; [reflexivity|]. now destruct K.
Qed.
