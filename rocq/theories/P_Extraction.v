(** Proofs about Bezier extraction matrices. *)
From Coq Require Import List Arith ZArith Lia Bool QArith Qcanon Sorted Permutation.
From Verif Require Import Base BaseRadix BaseSort BaseQc S_Grid P_Grid S_Spline P_Spline S_Value P_Value S_Knots S_Pieces
  M_Knots M_Extract M_Pieces P_Pieces S_KnotInsert M_KnotInsert P_KnotGlobal S_Extraction M_Extraction.
From Verif Require P_View P_IntWitness P_KnotInsert.
Import ListNotations.
Local Open Scope list_scope.
Local Open Scope nat_scope.

(** * The knots that are inserted *)
Definition grow (f : list Qc * list Qc) (r : option (list Qc * list Qc)) : option (list Qc * list Qc) :=
  match r with Some (kv, new) => Some (fst f ++ kv, snd f ++ new) | None => None end.
Lemma grow_grow a b c d r : grow (a, b) (grow (c, d) r) = grow (a ++ c, b ++ d) r.
Proof. destruct r as [[kv new]|]; cbn; [now rewrite !app_assoc|reflexivity]. Qed.
Lemma self_near tol u : (0 < tol)%Qc -> qltb (qabs (u - u)%Qc) tol = true.
Proof. intros H. destruct (qltb_spec (qabs (u - u)%Qc) tol) as [L|L]; auto. exfalso. replace (u - u)%Qc with 0%Qc in L by ring. apply L. exact H. Qed.
Lemma fill_nil f tol p c r : fill_knots f tol p [] c r = Some ([], []).
Proof. destruct f; reflexivity. Qed.
(** Old knots of a run, then new ones. *)
Lemma fill_old tol p u j r f tail : (0 < tol)%Qc -> r + j <= p + 1 ->
  fill_knots (j + f) tol p (repeat u j ++ tail) u r = grow (repeat u j, []) (fill_knots f tol p tail u (r + j)).
Proof.
  intros Ht. revert r. induction j as [|j IH]; intros r H.
  - cbn [repeat app Nat.add]. rewrite Nat.add_0_r. destruct (fill_knots f tol p tail u r) as [[kv new]|]; reflexivity.
  - cbn [repeat app Nat.add]. cbn [fill_knots].
    replace (p <? r) with false by (symmetry; apply Nat.ltb_ge; lia). rewrite self_near by auto. rewrite IH by lia. replace (S r + j) with (r + S j) by lia.
    destruct (fill_knots f tol p tail u (r + S j)) as [[kv new]|]; reflexivity.
Qed.
Lemma fill_new tol p u x tail j r f : (tol <= qabs (u - x))%Qc -> r + j = p + 1 ->
  fill_knots (j + f) tol p (x :: tail) u r = grow (repeat u j, repeat u j) (fill_knots f tol p (x :: tail) u (p + 1)).
Proof.
  intros Hf. revert r. induction j as [|j IH]; intros r H.
  - cbn [Nat.add repeat]. replace r with (p + 1) by lia. destruct (fill_knots f tol p (x :: tail) u (p + 1)) as [[kv new]|]; reflexivity.
  - cbn [Nat.add]. change (fill_knots (S (j + f)) tol p (x :: tail) u r) with
      (let c := if p <? r then x else u in let ref := if p <? r then 1 else r in
       if qltb (qabs (c - x)%Qc) tol
          then match fill_knots (j + f) tol p tail c (S ref) with Some (kv, new) => Some (c :: kv, new) | None => None end
          else match fill_knots (j + f) tol p (x :: tail) c (S ref) with Some (kv, new) => Some (c :: kv, c :: new) | None => None end).
    replace (p <? r) with false by (symmetry; apply Nat.ltb_ge; lia). cbv zeta.
    destruct (qltb_spec (qabs (u - x)%Qc) tol) as [L|L]; [exfalso; exact (Qclt_not_le _ _ L Hf)|].
    rewrite IH by lia. destruct (fill_knots f tol p (x :: tail) u (p + 1)) as [[kv new]|]; reflexivity.
Qed.
Lemma fill_next tol p u x tail f : 1 <= p -> fill_knots f tol p (x :: tail) u (p + 1) = fill_knots f tol p (x :: tail) x 1.
Proof.
  intros Hp. destruct f; [reflexivity|]. cbn [fill_knots].
  replace (p <? p + 1) with true by (symmetry; apply Nat.ltb_lt; lia). replace (p <? 1) with false by (symmetry; apply Nat.ltb_ge; lia). reflexivity.
Qed.
(** A run that is filled up. *)
Lemma fill_run tol p u x tail j r f : (0 < tol)%Qc -> 1 <= p -> (tol <= qabs (u - x))%Qc -> r + j <= p + 1 ->
  fill_knots (p + 1 - r + f) tol p (repeat u j ++ x :: tail) u r =
  grow (repeat u (p + 1 - r), repeat u (p + 1 - r - j)) (fill_knots f tol p (x :: tail) x 1).
Proof.
  intros Ht Hp Hf H. replace (p + 1 - r + f) with (j + ((p + 1 - r - j) + f)) by lia. rewrite fill_old by auto.
  rewrite fill_new by (auto; lia). rewrite grow_grow, fill_next by auto. rewrite <- repeat_app. cbn [app]. f_equal. f_equal. f_equal. lia.
Qed.
Definition missing (p : nat) (us : list Qc) (ms : list nat) : list Qc := expand_knots us (map (fun k => p - k) ms).
(** Inner runs and the last one. *)
Lemma fill_tail tol p us ms f : (0 < tol)%Qc -> 1 <= p -> StronglySorted Qclt us -> apart tol us -> length us = S (length ms) ->
  Forall (fun k => 1 <= k <= p) ms ->
  fill_knots (length ms * p + (p + 1) + f) tol p (expand_knots us (ms ++ [p + 1])) (hd 0%Qc us) 1 =
  Some (expand_knots us (repeat p (length ms) ++ [p + 1]), missing p us ms).
Proof.
  intros Ht Hp. revert us. induction ms as [|m ms IH]; intros [|u us] SS A L F; try discriminate L.
  - destruct us; [|discriminate L]. cbn [length Nat.mul Nat.add app repeat hd]. rewrite !expand_cons. cbn [expand_knots combine map concat]. rewrite !app_nil_r.
    rewrite (repeat_app u p 1). change (repeat u 1) with [u].
    replace (p + 1 + f) with (p + S f) by lia. rewrite fill_old by (auto; lia). replace (1 + p) with (p + 1) by lia. rewrite fill_next by auto.
    cbn [fill_knots]. replace (p <? 1) with false by (symmetry; apply Nat.ltb_ge; lia). rewrite self_near by auto. rewrite fill_nil.
    cbn [grow fst snd app]. unfold missing. cbn [map expand_knots combine concat]. reflexivity.
  - inversion SS as [|? ? SS' Fu]; subst. inversion F as [|? ? Fm F']; subst. cbn [app length repeat hd]. rewrite !expand_cons.
    destruct us as [|x us]; [destruct ms; discriminate L|].
    assert (exists tail, expand_knots (x :: us) (ms ++ [p + 1]) = x :: tail) as [tail Et].
    { destruct ms as [|m' ms]; cbn [app]; rewrite expand_cons.
      - replace (p + 1) with (S p) by lia. cbn [repeat app]. eauto.
      - inversion F'; subst. destruct m' as [|m']; [lia|]. cbn [repeat app]. eauto. }
    rewrite Et. replace (S (length ms) * p + (p + 1) + f) with (p + 1 - 1 + (length ms * p + (p + 1) + f)) by lia.
    assert (u < x)%Qc as Hux by now inversion Fu.
    rewrite fill_run; auto; [|destruct (A u x) as [E|E]; auto; [now left|right; now left|subst; exfalso; eapply Qclt_not_eq; [exact Hux|reflexivity]]|lia].
    rewrite <- Et. specialize (IH (x :: us) SS' ltac:(intros a b Ha Hb; apply A; now right) ltac:(cbn in *; lia) F'). cbn [hd] in IH. rewrite IH.
    cbn [grow fst snd]. unfold missing. cbn [map]. rewrite expand_cons. repeat f_equal; lia.
Qed.
Lemma missing_length p us ms : length us = length ms -> length (missing p us ms) = list_sum (map (fun k => p - k) ms).
Proof. intros H. unfold missing. apply expand_length. now rewrite map_length. Qed.
Lemma expand_app us us' ms ms' : length us = length ms -> expand_knots (us ++ us') (ms ++ ms') = expand_knots us ms ++ expand_knots us' ms'.
Proof.
  intros H. unfold expand_knots. revert ms H. induction us as [|u us IH]; intros [|m ms] H; try discriminate H; [reflexivity|]. cbn [app combine map concat fst snd].
  rewrite IH by (cbn in H; lia). now rewrite app_assoc.
Qed.
Lemma new_knots_ok tol p us ms : (0 < tol)%Qc -> 1 <= p -> StronglySorted Qclt us -> apart tol us -> length us = S (S (length ms)) ->
  Forall (fun k => 1 <= k <= p) ms ->
  new_knot_vector tol p (expand_knots us ((p + 1) :: ms ++ [p + 1])) =
  Some (expand_knots us ((p + 1) :: repeat p (length ms) ++ [p + 1]), missing p (tl us) ms).
Proof.
  intros Ht Hp SS A L F. unfold new_knot_vector.
  assert (length (expand_knots us ((p + 1) :: ms ++ [p + 1])) = (p + 1) * 2 + list_sum ms) as Lk.
  { rewrite expand_length by (cbn; rewrite app_length; cbn; lia). rewrite list_sum_cons, list_sum_app. cbn. lia. }
  rewrite Lk. replace (_ <? _) with false by (symmetry; apply Nat.ltb_ge; lia).
  replace ((p + 1) * 2 + list_sum ms - (p + 1) * 2) with (list_sum ms) by lia.
  destruct us as [|u [|x us]]; cbn [length] in L; try discriminate L.
  assert (length ms * p <= list_sum ms * p) as Lm.
  { apply Nat.mul_le_mono_r. clear - F. induction F as [|k ms Hk F IH]; [cbn; lia|]. rewrite list_sum_cons. cbn [length]. lia. }
  assert (exists e, list_sum ms * p + (p + 1) * 2 = (p + 1 - 0) + (length ms * p + (p + 1) + e)) as [e Ee]. { exists (list_sum ms * p - length ms * p). lia. }
  rewrite Ee. inversion SS as [|? ? SS' Fu]; subst. assert (u < x)%Qc as Hux by now inversion Fu.
  rewrite !expand_cons. replace (hd 0%Qc (repeat u (p + 1) ++ _)) with u by (replace (p + 1) with (S p) by lia; reflexivity).
  assert (exists tail, expand_knots (x :: us) (ms ++ [p + 1]) = x :: tail) as [tail Et].
  { destruct ms as [|m' ms]; cbn [app]; rewrite expand_cons.
    - replace (p + 1) with (S p) by lia. cbn [repeat app]. eauto.
    - inversion F; subst. destruct m' as [|m']; [lia|]. cbn [repeat app]. eauto. }
  assert (tol <= qabs (u - x))%Qc as Hg.
  { destruct (A u x) as [E|E]; auto; [now left|right; now left|subst; exfalso; eapply Qclt_not_eq; [exact Hux|reflexivity]]. }
  rewrite Et, fill_run by (auto; lia).
  rewrite <- Et. pose proof (fill_tail tol p (x :: us) ms e Ht Hp SS' ltac:(intros a b Ha Hb; apply A; now right) ltac:(cbn in *; lia) F) as T. cbn [hd] in T. rewrite T.
  cbn [grow fst snd]. replace (p + 1 - 0 - (p + 1)) with 0 by lia. replace (p + 1 - 0) with (p + 1) by lia. cbn [repeat app tl].
  replace (_ <=? _) with true; [reflexivity|]. symmetry. apply Nat.leb_le.
  assert (length (missing p (x :: us) ms) <= list_sum (map (fun k => p - k) ms)) as H1.
  { unfold missing. clear. generalize (x :: us) as l. induction ms as [|m ms IH]; intros [|a l]; cbn [map]; try (cbn; lia).
    rewrite expand_cons, app_length, repeat_length, list_sum_cons. specialize (IH l). lia. }
  assert (list_sum (map (fun k => p - k) ms) <= list_sum ms * p); [|lia].
  clear - F. induction F as [|k ms Hk F IH]; [cbn; lia|]. cbn [map]. rewrite !list_sum_cons. nia.
Qed.

(** * Matrices *)
Lemma combine_sum (row : list Qc) (cps : list (list Qc)) d : length row = length cps ->
  qsum (map (fun rc => fst rc * nth d (snd rc) 0)%Qc (combine row cps)) =
  qsum (map (fun k => nth k row 0 * nth d (nth k cps []) 0)%Qc (seq 0 (length cps))).
Proof.
  revert cps. induction row as [|x row IH]; intros [|c cps] L; try discriminate L; [reflexivity|]. cbn [combine map qsum length seq fst snd nth].
  f_equal. rewrite IH by (cbn in L; lia). rewrite <- seq_shift, map_map. reflexivity.
Qed.
Lemma nth_combined M dim cps i d : i < length M -> d < dim ->
  nth d (nth i (combined M dim cps) []) 0%Qc = qsum (map (fun rc => fst rc * nth d (snd rc) 0)%Qc (combine (nth i M []) cps)).
Proof.
  intros Hi Hd. unfold combined. rewrite nth_indep with (d' := (fun row => map (fun d => qsum (map (fun rc => fst rc * nth d (snd rc) 0)%Qc (combine row cps))) (seq 0 dim)) []) by now rewrite map_length.
  rewrite (map_nth (fun row => map (fun d => qsum (map (fun rc => fst rc * nth d (snd rc) 0)%Qc (combine row cps))) (seq 0 dim))).
  rewrite nth_indep with (d' := (fun d => qsum (map (fun rc => fst rc * nth d (snd rc) 0)%Qc (combine (nth i M []) cps))) 0) by now rewrite map_length, seq_length.
  rewrite (map_nth (fun d => qsum (map (fun rc => fst rc * nth d (snd rc) 0)%Qc (combine (nth i M []) cps)))). now rewrite seq_nth.
Qed.
Definition shape (rows cols : nat) (M : list (list Qc)) : Prop := length M = rows /\ Forall (fun row => length row = cols) M.
Lemma mat_mul_shape a b r k n : 0 < k -> shape r k a -> shape k n b -> shape r n (mat_mul a b).
Proof.
  intros Hk [La Fa] [Lb Fb]. split; [unfold mat_mul; now rewrite map_length|]. unfold mat_mul. apply Forall_map. eapply Forall_impl; [|exact Fa]. intros row _.
  rewrite map_length, seq_length. destruct b as [|x b]; [cbn in Lb; lia|]. cbn [hd]. now inversion Fb.
Qed.
Lemma combined_mul a b r k dim cps : 0 < k -> shape r k a -> shape k (length cps) b ->
  combined (mat_mul a b) dim cps = combined a dim (combined b dim cps).
Proof.
  intros Hk [La Fa] [Lb Fb]. unfold combined at 1 2, mat_mul. rewrite map_map. apply map_ext_in. intros row Hrow. apply map_ext_in. intros d Hd. apply in_seq in Hd.
  rewrite Forall_forall in Fa. specialize (Fa _ Hrow).
  assert (length (hd [] b) = length cps) as Hh. { destruct b as [|x b]; [cbn in Lb; lia|]. now inversion Fb. }
  rewrite combine_sum by (rewrite map_length, seq_length; exact Hh).
  rewrite combine_sum by (unfold combined; rewrite map_length; lia).
  replace (length (combined b dim cps)) with (length b) by (unfold combined; now rewrite map_length).
  rewrite Hh.
  rewrite (qsum_ext (fun k0 => nth k0 row 0 * nth d (nth k0 (combined b dim cps) []) 0)%Qc
    (fun k0 => qsum (map (fun c => nth k0 row 0 * nth c (nth k0 b []) 0 * nth d (nth c cps []) 0)%Qc (seq 0 (length cps))))).
  - rewrite (qsum_ext _ (fun c => qsum (map (fun k0 => nth k0 row 0 * nth c (nth k0 b []) 0 * nth d (nth c cps []) 0)%Qc (seq 0 (length b))))).
    + apply qsum_swap.
    + intros c Hc. apply in_seq in Hc. rewrite nth_indep with (d' := (fun c => qsum (map (fun k0 => nth k0 row 0 * nth c (nth k0 b []) 0)%Qc (seq 0 (length b)))) 0) by (rewrite map_length, seq_length; lia).
      rewrite (map_nth (fun c => qsum (map (fun k0 => nth k0 row 0 * nth c (nth k0 b []) 0)%Qc (seq 0 (length b))))), seq_nth by lia. cbn [Nat.add].
      rewrite <- qsum_map_mul_r. reflexivity.
  - intros k0 Hk0. apply in_seq in Hk0. rewrite nth_combined by lia.
    rewrite combine_sum. 2:{ rewrite Forall_forall in Fb. apply Fb, nth_In. lia. }
    rewrite <- qsum_map_mul_l. apply qsum_ext. intros c _. ring.
Qed.
Lemma dense_shape g : shape (gm_new g) (gm_old g) (dense g).
Proof.
  split; unfold dense; [now rewrite map_length, seq_length|]. apply Forall_map, Forall_forall. intros r _. now rewrite map_length, seq_length.
Qed.
Lemma nth_map_seq0 {A} (f : nat -> A) n i d : i < n -> nth i (map f (seq 0 n)) d = f i.
Proof. intros H. rewrite nth_indep with (d' := f 0) by now rewrite map_length, seq_length. rewrite map_nth, seq_nth by exact H. reflexivity. Qed.
Lemma combined_dense g dim cps : length cps = gm_old g -> (forall r c v, In (r, c, v) (gm_entries g) -> c < gm_old g) ->
  combined (dense g) dim cps = apply_entries (gm_entries g) (gm_new g) dim cps.
Proof.
  intros L H. unfold combined, dense, apply_entries. rewrite map_map. apply map_ext_in. intros r _. apply map_ext_in. intros d _.
  rewrite combine_sum by (rewrite map_length, seq_length; auto). rewrite L.
  rewrite (qsum_ext _ (fun c => qsum (map (fun e => (if (fst (fst e) =? r) && (snd (fst e) =? c) then snd e else 0) * nth d (nth c cps []) 0)%Qc (gm_entries g)))).
  2:{ intros c Hc. apply in_seq in Hc. rewrite nth_map_seq0 by lia. rewrite <- qsum_map_mul_r. reflexivity. }
  rewrite qsum_swap. apply qsum_ext. intros [[r' c'] v] He. cbn [fst snd]. specialize (H _ _ _ He).
  destruct (r' =? r); cbn [andb].
  - rewrite (qsum_single _ (gm_old g) c'); [rewrite Nat.eqb_refl; reflexivity|exact H|]. intros i Hi Hn.
    replace (c' =? i) with false by (symmetry; apply Nat.eqb_neq; auto). ring.
  - apply qsum_zero. intros c _. ring.
Qed.
Lemma convex_dense g : convex_rows (gm_entries g) (gm_new g) (gm_old g) -> convex_matrix (gm_new g) (gm_old g) (dense g).
Proof.
  intros [H1 H2]. split; [apply dense_shape|]. unfold dense. apply Forall_map, Forall_forall. intros r Hr. apply in_seq in Hr.
  split; [now rewrite map_length, seq_length|]. split.
  - apply Forall_map, Forall_forall. intros c _. apply qsum_nonneg. intros [[r' c'] v] He. cbn [fst snd]. destruct ((r' =? r) && (c' =? c)); [eapply H1; eauto|apply Qcle_refl].
  - rewrite qsum_swap. rewrite <- (H2 r) by lia. clear H2.
    assert (forall r c v, In (r, c, v) (gm_entries g) -> c < gm_old g) as H by (intros ? ? ? He; eapply H1; eauto). clear H1. revert H. generalize (gm_entries g) as l.
    induction l as [|[[r' c'] v] l IH]; intros H; [reflexivity|]. cbn [map qsum filter fst snd]. rewrite IH by (intros; eapply H; right; eauto).
    destruct (r' =? r); cbn [andb map qsum snd].
    + f_equal. rewrite (qsum_single _ (gm_old g) c'); [now rewrite Nat.eqb_refl|eapply H; left; eauto|]. intros i Hi Hn.
      replace (c' =? i) with false by (symmetry; apply Nat.eqb_neq; auto). reflexivity.
    + rewrite qsum_zero by auto. ring.
Qed.
Lemma convex_shape r n M : convex_matrix r n M -> shape r n M.
Proof. intros [L F]. split; auto. eapply Forall_impl; [|exact F]. intros row H. apply H. Qed.
Lemma qsum_nth (l : list Qc) : qsum l = qsum (map (fun k => nth k l 0%Qc) (seq 0 (length l))).
Proof. induction l as [|x l IH]; [reflexivity|]. cbn [length seq map qsum nth]. rewrite <- seq_shift, map_map. now rewrite IH at 1. Qed.
Lemma convex_mul a b r k n : 0 < k -> convex_matrix r k a -> convex_matrix k n b -> convex_matrix r n (mat_mul a b).
Proof.
  intros Hk Ca Cb. pose proof (mat_mul_shape a b r k n Hk (convex_shape _ _ _ Ca) (convex_shape _ _ _ Cb)) as [L F]. split; auto.
  destruct Ca as [La Fa], Cb as [Lb Fb]. rewrite Forall_forall in *. intros row' Hr'. pose proof (F _ Hr') as Lr. split; auto.
  unfold mat_mul in Hr'. apply in_map_iff in Hr' as (row & <- & Hrow). destruct (Fa _ Hrow) as (L1 & P1 & S1). rewrite map_length, seq_length in Lr. rewrite Lr.
  assert (forall i, i < k -> length (nth i b []) = n /\ Forall (fun x => 0 <= x)%Qc (nth i b []) /\ qsum (nth i b []) = 1%Qc) as Hb.
  { intros i Hi. apply Fb, nth_In. lia. }
  assert (forall i (l : list Qc), Forall (fun x => 0 <= x)%Qc l -> (0 <= nth i l 0)%Qc) as NN.
  { intros i l Hl. destruct (Nat.lt_ge_cases i (length l)) as [Hi|Hi]; [rewrite Forall_forall in Hl; now apply Hl, nth_In|]. rewrite nth_overflow by auto. apply Qcle_refl. }
  split.
  - apply Forall_map, Forall_forall. intros c Hc. apply qsum_nonneg. intros i Hi. apply in_seq in Hi. destruct (Hb i ltac:(lia)) as (_ & P2 & _).
    apply Qc_mul_nonneg; apply NN; auto.
  - rewrite qsum_swap. rewrite (qsum_ext _ (fun i => nth i row 0%Qc)).
    + rewrite <- S1, (qsum_nth row). now rewrite Lb, L1.
    + intros i Hi. apply in_seq in Hi. rewrite qsum_map_mul_l. destruct (Hb i ltac:(lia)) as (L2 & _ & S2). rewrite <- L2, <- qsum_nth, S2. ring.
Qed.

(** * One axis *)
Section Axis.
Variables (tol : Qc) (p : nat) (us : list Qc) (ms : list nat).
Hypothesis (Ht : (0 < tol)%Qc) (Hp : 1 <= p) (SS : StronglySorted Qclt us) (A : apart tol us).
Hypothesis (L : length us = S (S (length ms))) (F : Forall (fun k => 1 <= k <= p) ms).
Let m := (p + 1) :: ms ++ [p + 1].
Let kv := expand_knots us m.
Lemma mult_length : length us = length m.
Proof. unfold m. cbn [length]. rewrite app_length. cbn [length]. lia. Qed.
Lemma mult_positive : Forall (fun k => 0 < k) m.
Proof. unfold m. constructor; [lia|]. apply Forall_app. split; [eapply Forall_impl; [|exact F]; cbn; intros; lia|]. constructor; [lia|constructor]. Qed.
Lemma open_axis_knots : S_Integrate.axis_knots (KnotAxis p kv) us.
Proof.
  split; auto. exists m. pose proof mult_length as Lm. repeat split; auto; try lia; [|apply mult_positive].
  unfold m. cbn [length]. rewrite app_length. cbn [length]. replace (S (length ms + 1) - 1) with (S (length ms)) by lia. cbn [nth].
  rewrite app_nth2 by lia. now rewrite Nat.sub_diag.
Qed.
Lemma kv_length : length kv = (p + 1) + list_sum ms + (p + 1).
Proof. unfold kv. rewrite expand_length by apply mult_length. unfold m. rewrite list_sum_cons, list_sum_app. cbn. lia. Qed.
Lemma new_in x : In x (missing p (tl us) ms) -> In x us /\ (nth 0 us 0 < x)%Qc /\ (x < nth (length us - 1) us 0)%Qc.
Proof.
  destruct us as [|u us']; [discriminate L|]. cbn [tl length] in *. intros H.
  assert (exists i, i < length ms /\ x = nth i us' 0%Qc) as (i & Hi & ->).
  { clear - H L. unfold missing in H. assert (length us' = S (length ms)) as L' by lia. clear L. revert us' L' H.
    induction ms as [|k ms' IH]; intros [|y us'] L' H; try discriminate L'; [destruct H|]. cbn [map] in H. rewrite expand_cons in H. apply in_app_iff in H as [H|H].
    - apply repeat_spec in H. subst. exists 0. cbn. split; [lia|reflexivity].
    - destruct (IH us' ltac:(cbn in L'; lia) H) as (i & Hi & ->). exists (S i). cbn. split; [lia|reflexivity]. }
  inversion SS as [|? ? SS' Fu]; subst. split; [right; apply nth_In; lia|]. split.
  - cbn [nth]. rewrite Forall_forall in Fu. apply Fu, nth_In. lia.
  - replace (S (length us') - 1) with (S (length ms)) by lia. cbn [nth]. apply P_Integrate.sorted_nth; auto; lia.
Qed.
Lemma open_insertable : insertable tol p (length kv - p - 1) kv (missing p (tl us) ms).
Proof.
  pose proof kv_length as Lk. pose proof mult_length as Lm. destruct (P_Integrate.axis_bounds _ _ open_axis_knots) as (_ & El & Eu). cbn [ax_lower ax_upper ax_n] in El, Eu.
  assert (forall c i, c < length m -> list_sum (firstn c m) <= i < list_sum (firstn (S c) m) -> kn kv i = nth c us 0%Qc) as K.
  { intros c i Hc Hi. rewrite (kn_nth _ _ 0%Qc). - now apply expand_nth. - unfold kv. rewrite expand_length by auto. pose proof (firstn_sum_le (S c) m). lia. }
  constructor; auto.
  - exact (P_View.axis_knot_vector p kv us open_axis_knots).
  - rewrite (K 0 0), (K 0 p); auto; try (unfold m; cbn; lia).
  - assert (firstn (length ms + 1) m = (p + 1) :: ms) as E1.
    { unfold m. replace (length ms + 1) with (S (length ms)) by lia. cbn [firstn]. rewrite firstn_app, firstn_all, Nat.sub_diag, firstn_O, app_nil_r. reflexivity. }
    assert (list_sum (firstn (length ms) m) < p + 1 + list_sum ms) as E2.
    { destruct ms as [|k ms'] using rev_ind; [cbn; lia|]. apply Forall_app in F as [_ Fk]. inversion Fk; subst. unfold m. rewrite !app_length. cbn [length].
      replace (length ms' + 1) with (S (length ms')) by lia. cbn [firstn]. rewrite <- app_assoc, firstn_app, firstn_all, Nat.sub_diag, firstn_O, app_nil_r.
      rewrite list_sum_cons, list_sum_app. cbn [list_sum fold_right]. lia. }
    assert (list_sum ((p + 1) :: ms) = p + 1 + list_sum ms) as E3 by reflexivity.
    assert (length m = S (S (length ms))) as Lm' by lia.
    rewrite Lk. replace (p + 1 + list_sum ms + (p + 1) - p - 1) with (p + 1 + list_sum ms) by lia. rewrite (K (length ms) (p + 1 + list_sum ms - 1)).
    + rewrite (K (length ms + 1)); [|lia|].
      * apply P_Integrate.sorted_nth; auto; lia.
      * rewrite E1, E3. replace (S (length ms + 1)) with (length m) by lia. rewrite firstn_all. unfold m. rewrite list_sum_cons, list_sum_app. cbn [list_sum fold_right]. lia.
    + lia.
    + replace (S (length ms)) with (length ms + 1) by lia. rewrite E1, E3. lia.
  - intros x y Hx Hy. apply A.
    + unfold kv in Hx. apply P_View.expand_in in Hx; auto. apply mult_positive.
    + apply in_app_iff in Hy as [Hy|Hy]; [unfold kv in Hy; apply P_View.expand_in in Hy; auto; apply mult_positive|now apply new_in in Hy].
  - intros x Hx. rewrite El, Eu. now apply new_in in Hx.
Qed.
Let kv' := expand_knots us ((p + 1) :: repeat p (length ms) ++ [p + 1]).
Lemma new_permutation : Permutation kv' (kv ++ missing p (tl us) ms).
Proof.
  unfold kv', kv, m. destruct us as [|u us']; [discriminate L|]. cbn [tl length] in *. rewrite !expand_cons, <- app_assoc. apply Permutation_app_head.
  clear - L F. assert (length us' = S (length ms)) as L' by lia. clear L. revert us' L' F. induction ms as [|k ms' IH]; intros [|y us'] L' F; try discriminate L'.
  - unfold missing. cbn [map length repeat app]. rewrite expand_cons. destruct us'; [|discriminate L']. cbn. rewrite !app_nil_r. reflexivity.
  - inversion F as [|? ? Fk F']; subst. cbn [length repeat app]. unfold missing. cbn [map]. rewrite !expand_cons. fold (missing p us' ms').
    replace (repeat y p) with (repeat y k ++ repeat y (p - k)) by (rewrite <- repeat_app; f_equal; lia). rewrite <- !app_assoc. apply Permutation_app_head.
    rewrite IH by (auto; cbn in L'; lia). rewrite Permutation_app_comm, <- app_assoc. apply Permutation_app_head. apply Permutation_app_comm.
Qed.
Lemma new_bezier : piecewise_bezier p kv' us ((p + 1) :: repeat p (length ms) ++ [p + 1]).
Proof.
  assert (length ((p + 1) :: repeat p (length ms) ++ [p + 1]) = S (S (length ms))) as Lr by (cbn [length]; rewrite app_length, repeat_length; cbn; lia).
  assert (forall i, i < S (S (length ms)) -> p <= nth i ((p + 1) :: repeat p (length ms) ++ [p + 1]) 0) as Hn.
  { intros [|i] Hi; cbn [nth]; [lia|]. destruct (Nat.lt_ge_cases i (length ms)) as [Hl|Hl].
    - rewrite app_nth1 by (rewrite repeat_length; lia). rewrite nth_indep with (d' := p) by (rewrite repeat_length; lia). now rewrite nth_repeat.
    - rewrite app_nth2 by (rewrite repeat_length; lia). rewrite repeat_length. replace (i - length ms) with 0 by lia. cbn. lia. }
  unfold piecewise_bezier. rewrite Lr. split; [reflexivity|]. split; [exact SS|]. split; [exact L|]. split; [lia|]. split; [reflexivity|]. split.
  - replace (S (S (length ms)) - 1) with (S (length ms)) by lia. cbn [nth]. rewrite app_nth2 by (rewrite repeat_length; lia). now rewrite repeat_length, Nat.sub_diag.
  - intros i Hi. specialize (Hn i Hi). lia.
Qed.
Lemma new_mult_inner c : S c < length us -> S (S c) = length us \/ nth (S c) ((p + 1) :: repeat p (length ms) ++ [p + 1]) 0 = p.
Proof.
  intros Hc. destruct (Nat.eq_dec (S (S c)) (length us)) as [E|E]; [now left|right]. cbn [nth]. rewrite app_nth1 by (rewrite repeat_length; lia).
  rewrite nth_indep with (d' := p) by (rewrite repeat_length; lia). now rewrite nth_repeat.
Qed.
End Axis.

Definition full_mults (p : nat) (us : list Qc) : list nat := (p + 1) :: repeat p (length us - 2) ++ [p + 1].
Definition refined (au : (nat * list Qc) * list Qc) : nat * list Qc := (fst (fst au), expand_knots (snd au) (full_mults (fst (fst au)) (snd au))).
Lemma axis_step tol p kv us : (0 < tol)%Qc -> open_knots p kv us -> apart tol us ->
  exists new, new_knot_vector tol p kv = Some (snd (refined ((p, kv), us)), new) /\ insertable tol p (length kv - p - 1) kv new /\
    Permutation (snd (refined ((p, kv), us))) (kv ++ new) /\ non_decreasing (snd (refined ((p, kv), us))).
Proof.
  intros Ht (Hp & SS & ms & L & -> & F) A. exists (missing p (tl us) ms). unfold refined, full_mults. cbn [fst snd]. replace (length us - 2) with (length ms) by lia.
  split; [now apply new_knots_ok|]. split; [now apply open_insertable|]. split; [now apply (new_permutation tol)|]. now apply P_View.expand_sorted.
Qed.
Lemma refined_bezier (tol : Qc) p kv us : (0 < tol)%Qc -> apart tol us -> open_knots p kv us -> piecewise_bezier p (snd (refined ((p, kv), us))) us (full_mults p us) /\
  forall c, S c < length us -> S (S c) = length us \/ nth (S c) (full_mults p us) 0 = p.
Proof.
  intros Ht A (Hp & SS & ms & L & -> & F). unfold refined, full_mults. cbn [fst snd]. replace (length us - 2) with (length ms) by lia. split.
  - now apply new_bezier.
  - intros c Hc. now apply new_mult_inner.
Qed.

(** * All axes *)
Definition n_points (axes : list (nat * list Qc)) : nat := fold_right Nat.mul 1 (map n_basis axes).
Definition applied (gs : list global_matrix) (dim : nat) (cps : list (list Qc)) : list (list Qc) :=
  fold_left (fun c g => apply_entries (gm_entries g) (gm_new g) dim c) gs cps.
(** Matrices that can be applied one after the other. *)
Fixpoint chain (n : nat) (gs : list global_matrix) : Prop :=
  match gs with
  | [] => True
  | g :: gs => gm_old g = n /\ convex_rows (gm_entries g) (gm_new g) (gm_old g) /\ 0 < gm_new g /\ chain (gm_new g) gs
  end.
Lemma gm_old_eq tol axes k ks g : global_insertion_matrix tol axes k ks = Some g -> gm_old g = n_points axes.
Proof.
  unfold global_insertion_matrix. destruct (nth_error axes k) as [[p old]|]; [|discriminate].
  destruct (merge_loop _ _ _ _ _) as [[new reads]|]; [|discriminate]. destruct (insertion_matrix _ _ _ _) as [[rows mus]|]; [|discriminate].
  intros E. injection E as <-. cbn [gm_old]. unfold n_points. symmetry. rewrite <- fold_symmetric by (intros; lia). reflexivity.
Qed.
Lemma apply_length es n dim cps : length (apply_entries es n dim cps) = n.
Proof. unfold apply_entries. now rewrite map_length, seq_length. Qed.
Lemma loop_ok tol todo knots : (0 < tol)%Qc -> Forall2 (fun a us => open_knots (fst a) (snd a) us /\ apart tol us) todo knots ->
  forall done cps, bs_wf (BSpline (done ++ todo) cps) ->
  exists gs, axis_matrices tol done todo = Some (gs, done ++ map refined (combine todo knots)) /\ length gs = length todo /\ chain (length cps) gs /\
    forall dim, bs_wf (BSpline (done ++ map refined (combine todo knots)) (applied gs dim cps)) /\
      forall us d, bs_in_domain (BSpline (done ++ todo) cps) us -> d < dim ->
        bs_in_domain (BSpline (done ++ map refined (combine todo knots)) (applied gs dim cps)) us /\
        bs_value (BSpline (done ++ map refined (combine todo knots)) (applied gs dim cps)) us d = bs_value (BSpline (done ++ todo) cps) us d.
Proof.
  intros Ht H. induction H as [|[p kv] us0 todo knots [Ha A] H IH]; intros done cps W.
  - exists []. cbn [axis_matrices combine map]. rewrite app_nil_r in *. split; [reflexivity|]. split; [reflexivity|]. split; [exact I|]. intros dim. cbn [applied fold_left]. split; auto.
  - cbn [fst snd] in Ha. destruct (axis_step tol p kv us0 Ht Ha A) as (new & E1 & I1 & P1 & N1).
    assert (nth_error (done ++ (p, kv) :: todo) (length done) = Some (p, kv)) as En by (rewrite nth_error_app2, Nat.sub_diag by lia; reflexivity).
    assert (firstn (length done) (done ++ (p, kv) :: todo) = done) as F1 by (rewrite firstn_app, Nat.sub_diag, firstn_all, firstn_O, app_nil_r; reflexivity).
    assert (skipn (S (length done)) (done ++ (p, kv) :: todo) = todo) as F2 by (rewrite skipn_app, skipn_all2 by lia; replace (S (length done) - length done) with 1 by lia; reflexivity).
    destruct (insertion_geometry tol _ cps _ p kv new 0 W En I1) as (g & Eg & Cg & _).
    assert (forall dim, let s' := BSpline ((done ++ [(p, snd (refined ((p, kv), us0)))]) ++ todo) (apply_entries (gm_entries g) (gm_new g) dim cps) in
      bs_wf s' /\ forall us, bs_in_domain (BSpline (done ++ (p, kv) :: todo) cps) us -> bs_in_domain s' us /\ forall d, d < dim -> bs_value s' us d = bs_value (BSpline (done ++ (p, kv) :: todo) cps) us d) as G.
    { intros dim. destruct (insertion_geometry tol _ cps _ p kv new dim W En I1) as (g' & Eg' & _ & G'). rewrite Eg in Eg'. injection Eg' as <-.
      specialize (G' _ P1 N1). rewrite F1, F2 in G'. rewrite <- app_assoc. exact G'. }
    assert (gm_old g = length cps) as Eo. { rewrite (gm_old_eq _ _ _ _ _ Eg). symmetry. apply W. }
    assert (0 < gm_new g) as Pn.
    { destruct (G 0) as [[WF WL] _]. cbn [bs_cps] in WL. rewrite apply_length in WL. rewrite WL. clear - WF. unfold bs_res. cbn [bs_axes] in *.
      induction WF as [|a l Ha WF IH]; [cbn; lia|]. cbn [map fold_right]. assert (0 < n_basis a); [|nia]. destruct a as [q kv']. destruct Ha as (Lk & M & B). cbn [fst snd] in *.
      destruct (Nat.eq_dec (n_basis (q, kv')) 0) as [E|E]; [|lia]. exfalso. rewrite E in *. apply (Qclt_not_le _ _ B). rewrite !(kn_nth _ _ 0%Qc) by lia. apply M; lia. }
    cbn [axis_matrices]. rewrite E1, Eg. cbn [combine map]. change (refined ((p, kv), us0)) with (p, snd (refined ((p, kv), us0))).
    set (kv' := snd (refined ((p, kv), us0))) in *.
    destruct (IH (done ++ [(p, kv')]) (apply_entries (gm_entries g) (gm_new g) 0 cps)) as (gs & E2 & L2 & C2 & _); [apply G|].
    cbn [snd]. rewrite E2. rewrite apply_length in C2. exists (g :: gs). replace (done ++ (p, kv') :: map refined (combine todo knots)) with ((done ++ [(p, kv')]) ++ map refined (combine todo knots)) by now rewrite <- app_assoc.
    split; [reflexivity|]. split; [cbn; lia|]. split; [cbn [chain]; rewrite Eo; auto|]. intros dim. destruct (G dim) as [W' V'].
    destruct (IH (done ++ [(p, kv')]) (apply_entries (gm_entries g) (gm_new g) dim cps) W') as (gs' & E2' & _ & _ & R). rewrite E2 in E2'. injection E2' as <-.
    destruct (R dim) as [R1 R2]. change (applied (g :: gs) dim cps) with (applied gs dim (apply_entries (gm_entries g) (gm_new g) dim cps)). split; [exact R1|].
    intros us d D Hd. destruct (V' us D) as [D' V2]. destruct (R2 us d D' Hd) as [D2 V3]. split; [exact D2|]. rewrite V3. now apply V2.
Qed.
Lemma chain_combined gs n m acc N : chain n gs -> convex_matrix n N acc -> 0 < n ->
  m = fold_left (fun acc n_mat => mat_mul n_mat acc) (map dense gs) acc ->
  (exists r, convex_matrix r N m) /\ forall dim cps, length cps = N -> combined m dim cps = applied gs dim (combined acc dim cps).
Proof.
  revert n acc m. induction gs as [|g gs IH]; intros n acc m C Ca Hn ->; cbn [map fold_left].
  - split; [eauto|]. reflexivity.
  - destruct C as (Eo & Cr & Pn & C). assert (convex_matrix (gm_new g) N (mat_mul (dense g) acc)) as Cm.
    { apply (convex_mul (dense g) acc (gm_new g) (gm_old g) N); [lia|now apply convex_dense|now rewrite Eo]. }
    destruct (IH _ _ _ C Cm Pn eq_refl) as [X Y]. split; [exact X|]. intros dim cps L. rewrite Y by exact L. cbn [applied fold_left].
    rewrite (combined_mul (dense g) acc (gm_new g) (gm_old g)); [|lia|apply dense_shape|rewrite Eo, L; now apply convex_shape].
    rewrite combined_dense; [reflexivity| |].
    + unfold combined. rewrite map_length, Eo. apply Ca.
    + intros r c v He. destruct Cr as [Cr _]. eapply Cr; eauto.
Qed.

(** * Patches *)
Lemma pick_map {A B} (f : A -> B) l ids : pick (map f l) ids = option_map (map f) (pick l ids).
Proof.
  unfold pick. induction ids as [|i ids IH]; [reflexivity|]. cbn [map all_some]. rewrite nth_error_map. destruct (nth_error l i) as [x|]; cbn [option_map]; [|reflexivity].
  rewrite IH. destruct (all_some (map (nth_error l) ids)); reflexivity.
Qed.
Lemma all_some_length {A} (l : list (option A)) r : all_some l = Some r -> length r = length l.
Proof.
  revert r. induction l as [|[x|] l IH]; intros r E; cbn [all_some] in E; try discriminate; [now injection E as <-|].
  destruct (all_some l) as [r'|]; [|discriminate]. injection E as <-. cbn [length]. f_equal. now apply IH.
Qed.
Lemma all_some_nth {A B} (f : A -> option B) l r i y : all_some (map f l) = Some r -> nth_error r i = Some y -> exists x, nth_error l i = Some x /\ f x = Some y.
Proof.
  revert r i. induction l as [|a l IH]; intros r i E N; cbn [map all_some] in E.
  - injection E as <-. destruct i; discriminate N.
  - destruct (f a) as [b|] eqn:Ea; [|discriminate]. destruct (all_some (map f l)) as [r'|] eqn:El; [|discriminate]. injection E as <-.
    destruct i as [|i]; cbn [nth_error] in *; [injection N as <-; eauto|]. eapply IH; eauto.
Qed.
Lemma all_some_exists {A B} (f : A -> option B) l : (forall x, In x l -> exists y, f x = Some y) -> exists r, all_some (map f l) = Some r.
Proof.
  induction l as [|a l IH]; intros H; [exists []; reflexivity|]. destruct (H a) as [y Ey]; [now left|]. destruct IH as [r Er]; [intros; apply H; now right|].
  exists (y :: r). cbn [map all_some]. now rewrite Ey, Er.
Qed.
Definition as_paxis (a : nat * list Qc) : paxis := KnotAxis (fst a) (snd a).
Lemma as_pair axes : map P_IntWitness.pair_of (map as_paxis axes) = axes.
Proof. rewrite map_map. rewrite <- (map_id axes) at 2. apply map_ext. now intros [p kv]. Qed.
Lemma as_knots axes : Forall (fun a => match a with KnotAxis _ _ => True | _ => False end) (map as_paxis axes).
Proof. apply Forall_map, Forall_forall. intros; exact I. Qed.
Lemma value_same axes cps us d : bs_value (BSpline axes cps) us d = sp_value (bspline_of axes cps None) us d.
Proof. rewrite <- (as_pair axes) at 1. rewrite P_IntWitness.same_value by apply as_knots. reflexivity. Qed.
Lemma wf_same axes cps : bs_wf (BSpline axes cps) <-> sp_wf (bspline_of axes cps None).
Proof. rewrite <- (as_pair axes) at 1. rewrite P_IntWitness.same_wf by apply as_knots. reflexivity. Qed.

Definition knots_of (tol : Qc) (axes : list (nat * list Qc)) (knots : list (list Qc)) : Prop :=
  Forall2 (fun a us => open_knots (fst a) (snd a) us /\ apart tol us) axes knots.
Definition um_of (au : (nat * list Qc) * list Qc) : list Qc * list nat := (snd au, full_mults (fst (fst au)) (snd au)).
Lemma refined_form tol axes knots : (0 < tol)%Qc -> knots_of tol axes knots -> bezier_form (map as_paxis (map refined (combine axes knots))) (map um_of (combine axes knots)).
Proof.
  intros Ht H. induction H as [|[p kv] us axes knots [Ha A] H IH]; [constructor|]. cbn [combine map]. constructor; auto.
  exists p, (snd (refined ((p, kv), us))). split; [reflexivity|]. now apply (refined_bezier tol).
Qed.
Lemma refined_apart tol axes knots : knots_of tol axes knots -> Forall (fun x => apart tol (fst x)) (map um_of (combine axes knots)).
Proof. intros H. induction H as [|[p kv] us axes knots [Ha A] H IH]; [constructor|]. cbn [combine map]. constructor; auto. Qed.
Lemma refined_counts tol axes knots : knots_of tol axes knots -> patch_counts (map um_of (combine axes knots)) = element_counts knots.
Proof. intros H. induction H as [|[p kv] us axes knots [Ha A] H IH]; [reflexivity|]. cbn [combine map patch_counts element_counts um_of fst snd]. f_equal. exact IH. Qed.
Lemma refined_degrees tol axes knots : knots_of tol axes knots -> map fst (map refined (combine axes knots)) = map fst axes.
Proof. intros H. induction H as [|[p kv] us axes knots [Ha A] H IH]; [reflexivity|]. cbn [combine map refined fst snd]. f_equal. exact IH. Qed.
Lemma open_axis_ok p kv us : open_knots p kv us -> S_Integrate.axis_knots (KnotAxis p kv) us.
Proof. intros (Hp & SS & ms & L & -> & F). now apply open_axis_knots. Qed.
Lemma axes_wf tol axes knots : knots_of tol axes knots -> Forall S_Spline.axis_wf axes.
Proof.
  intros H. induction H as [|[p kv] us axes knots [Ha A] H IH]; constructor; auto. exact (P_View.axis_knot_vector p kv us (open_axis_ok p kv us Ha)).
Qed.
Lemma element_patch tol axes knots c ts us : (0 < tol)%Qc -> knots_of tol axes knots -> element_parameter knots c ts us ->
  patch_parameter (map as_paxis (map refined (combine axes knots))) (map um_of (combine axes knots)) c ts us.
Proof.
  intros Ht H. revert c ts us. induction H as [|[p kv] g axes knots [Ha A] H IH]; intros c ts us E; inversion E; subst; [constructor|].
  cbn [combine map]. constructor; auto. cbn [fst snd um_of as_paxis refined ax_degree]. destruct (refined_bezier tol p kv g Ht A Ha) as [_ N].
  repeat split; auto.
Qed.
Lemma element_domain tol axes knots c ts us cps : knots_of tol axes knots -> element_parameter knots c ts us -> bs_in_domain (BSpline axes cps) us.
Proof.
  intros H. unfold bs_in_domain. cbn [bs_axes]. revert c ts us. induction H as [|[p kv] g axes knots [Ha A] H IH]; intros c ts us E; inversion E as [|? ? c0 cs t ts0 us0 Hc H0 H1 E']; subst; constructor; eauto.
  pose proof (open_axis_ok _ _ _ Ha) as K. pose proof (P_Integrate.sorted_nth g c0 (S c0) (proj1 K) ltac:(lia) Hc) as SL. set (a := nth c0 g 0%Qc) in *. set (b := nth (S c0) g 0%Qc) in *.
  assert (ax_domain (KnotAxis p kv) (a + t * (b - a)))%Qc as D; [|exact D].
  apply (P_Integrate.axis_in_domain _ g c0); auto; fold a b; clearbody a b; clear - H0 H1 SL; qnra.
Qed.
Lemma wf_points axes : Forall S_Spline.axis_wf axes -> 0 < n_points axes.
Proof.
  intros WF. unfold n_points. induction WF as [|a l Ha WF IH]; [cbn; lia|]. cbn [map fold_right]. assert (0 < n_basis a); [|nia]. destruct a as [q kv']. destruct Ha as (Lk & M & B). cbn [fst snd] in *.
  destruct (Nat.eq_dec (n_basis (q, kv')) 0) as [E|E]; [|lia]. exfalso. rewrite E in *. apply (Qclt_not_le _ _ B). rewrite !(kn_nth _ _ 0%Qc) by lia. apply M; lia.
Qed.
Lemma run_mults tol axes : map (axis_multiplicities tol) (map as_paxis axes) = map (fun a => run_lengths (near tol) (snd a)) axes.
Proof. rewrite map_map. reflexivity. Qed.
Lemma as_degrees axes : map ax_degree (map as_paxis axes) = map fst axes.
Proof. rewrite map_map. reflexivity. Qed.

Lemma extraction_ok tol axes knots : (0 < tol)%Qc -> axes <> [] -> knots_of tol axes knots ->
  exists Ms, extraction_matrices tol axes = Some Ms /\ length Ms = fold_right Nat.mul 1 (element_counts knots) /\
  forall c, below (element_counts knots) c -> exists M, nth_error Ms (flat_id (element_counts knots) c) = Some M /\
    convex_matrix (fold_right Nat.mul 1 (map (fun a => fst a + 1) axes)) (n_points axes) M /\
    forall cps dim ts us d, length cps = n_points axes -> element_parameter knots c ts us -> d < dim ->
      sp_value (bezier_of axes (combined M dim cps) None) ts d = sp_value (bspline_of axes cps None) us d.
Proof.
  intros Ht Na K. pose proof (axes_wf _ _ _ K) as WA. pose proof (wf_points _ WA) as Np.
  assert (forall cps, length cps = n_points axes -> bs_wf (BSpline ([] ++ axes) cps)) as W by (intros cps L; split; auto).
  set (cps0 := repeat (@nil Qc) (n_points axes)). assert (length cps0 = n_points axes) as L0 by apply repeat_length.
  destruct (loop_ok tol axes knots Ht K [] cps0 (W _ L0)) as (gs & E & Lg & Ch & _). rewrite L0 in Ch. cbn [app] in E.
  set (axes' := map refined (combine axes knots)) in *. set (um := map um_of (combine axes knots)).
  destruct gs as [|g gs]; [destruct axes; [contradiction|discriminate Lg]|]. destruct Ch as (Eo & Cr & Pn & Ch).
  set (matrix := fold_left (fun acc n_mat => mat_mul n_mat acc) (map dense gs) (dense g)).
  destruct (chain_combined gs (gm_new g) matrix (dense g) (n_points axes) Ch) as [[r Cm] Hm]; [rewrite <- Eo; now apply convex_dense|exact Pn|reflexivity|].
  assert (forall dim cps, length cps = n_points axes -> combined matrix dim cps = applied (g :: gs) dim cps) as Hc.
  { intros dim cps L. rewrite Hm by exact L. rewrite combined_dense; [reflexivity|congruence|]. intros r0 c0 v He. destruct Cr as [Cr _]. eapply Cr; eauto. }
  assert (forall dim cps, length cps = n_points axes -> let s' := bspline_of axes' (combined matrix dim cps) None in
    sp_wf s' /\ forall us d, bs_in_domain (BSpline axes cps) us -> d < dim -> sp_value s' us d = sp_value (bspline_of axes cps None) us d) as HV.
  { intros dim cps L s'. destruct (loop_ok tol axes knots Ht K [] cps (W _ L)) as (gs' & E' & _ & _ & R). cbn [app] in E', R. fold axes' in E', R. rewrite E in E'. injection E' as <-.
    destruct (R dim) as [R1 R2]. unfold s'. rewrite Hc by exact L. split; [now apply wf_same|]. intros us d D Hd. rewrite <- !value_same. now apply R2. }
  pose proof (refined_form tol axes knots Ht K) as BF. fold axes' in BF. pose proof (refined_apart tol axes knots K) as AP.
  pose proof (refined_counts tol axes knots K) as EC. fold um in BF, AP, EC.
  set (ids := bezier_patch_ids (map (fun a => run_lengths (near tol) (snd a)) axes') (map fst axes')).
  assert (forall dim cps, length cps = n_points axes -> exists bs, all_some (map (piece (bspline_of axes' (combined matrix dim cps) None)) ids) = Some bs /\ length bs = fold_right Nat.mul 1 (element_counts knots) /\
     forall c, below (element_counts knots) c -> exists b, nth_error bs (flat_id (element_counts knots) c) = Some b /\ sp_wf b /\
       forall ts us d, element_parameter knots c ts us -> d < dim -> sp_value b ts d = sp_value (bspline_of axes cps None) us d) as HB.
  { intros dim cps L. destruct (HV dim cps L) as [W' V']. destruct (pieces_spec tol _ um Ht W' BF AP I) as (bs & Eb & Lb & Hb).
    unfold bezier_pieces in Eb. cbn [bspline_of sp_axes] in Eb. change (map (fun a => KnotAxis (fst a) (snd a)) axes') with (map as_paxis axes') in Eb. rewrite run_mults, as_degrees in Eb. fold ids in Eb.
    exists bs. split; [exact Eb|]. rewrite EC in Lb, Hb. split; [exact Lb|]. intros c Bc. destruct (Hb c Bc) as (b & N & _ & Wb & _ & V). exists b. split; [exact N|]. split; [exact Wb|].
    intros ts us d EP Hd. rewrite (V ts us d) by (now apply (element_patch tol)). apply V'; auto. now apply (element_domain tol _ knots c ts). }
  assert (forall ids1, In ids1 ids -> exists M, pick matrix ids1 = Some M) as HP.
  { intros ids1 Hi. destruct (HB 0 cps0 L0) as (bs & Eb & _ & _). apply In_nth_error in Hi as [k Hk].
    assert (k < length bs) as Hl. { apply all_some_length in Eb. rewrite map_length in Eb. rewrite Eb. apply nth_error_Some. congruence. }
    destruct (nth_error bs k) as [b|] eqn:Nb; [|apply nth_error_None in Nb; lia]. destruct (all_some_nth _ _ _ _ _ Eb Nb) as (x & Nx & Ex). rewrite Hk in Nx. injection Nx as <-.
    unfold piece in Ex. cbn [bspline_of sp_cps sp_weights] in Ex. unfold combined in Ex. rewrite pick_map in Ex. destruct (pick matrix ids1) as [M|]; [eauto|discriminate Ex]. }
  destruct (all_some_exists _ _ HP) as [Ms EM]. destruct (HB 0 cps0 L0) as (bs0 & Eb0 & Lb0 & Hb0).
  assert (length Ms = length bs0) as LM by (rewrite (all_some_length _ _ EM), (all_some_length _ _ Eb0), !map_length; reflexivity).
  assert (extraction_matrices tol axes = Some Ms) as EX.
  { unfold extraction_matrices. rewrite E. fold ids. cbn [map]. destruct ids as [|i0 ids'] eqn:Ei; [|exact EM].
    exfalso. cbn in Eb0. injection Eb0 as <-. cbn [length] in Lb0. clear - Lb0 K. assert (0 < fold_right Nat.mul 1 (element_counts knots)); [|lia]. clear Lb0.
    induction K as [|[p kv] us axes knots [(_ & _ & ms & L & _) A] H IH]; [cbn; lia|]. cbn [element_counts map fold_right]. unfold element_counts in IH. rewrite L. nia. }
  exists Ms. split; [exact EX|]. split; [congruence|]. intros c Bc. destruct (Hb0 c Bc) as (b0 & Nb0 & _ & _).
  assert (flat_id (element_counts knots) c < length Ms) as Hl by (rewrite LM; apply nth_error_Some; congruence).
  destruct (nth_error Ms (flat_id (element_counts knots) c)) as [M|] eqn:NM; [|apply nth_error_None in NM; lia].
  destruct (all_some_nth _ _ _ _ _ EM NM) as (ids1 & Ni & Ep). exists M. split; [reflexivity|].
  assert (forall dim cps, length cps = n_points axes -> sp_wf (bezier_of axes (combined M dim cps) None) /\
     forall ts us d, element_parameter knots c ts us -> d < dim -> sp_value (bezier_of axes (combined M dim cps) None) ts d = sp_value (bspline_of axes cps None) us d) as HF.
  { intros dim cps L. destruct (HB dim cps L) as (bs & Eb & _ & Hb). destruct (Hb c Bc) as (b & Nb & Wb & Vb). destruct (all_some_nth _ _ _ _ _ Eb Nb) as (x & Nx & Ex). rewrite Ni in Nx. injection Nx as <-.
    unfold piece in Ex. cbn [bspline_of sp_cps sp_weights sp_axes] in Ex. unfold combined in Ex. rewrite pick_map, Ep in Ex. cbn [option_map] in Ex. injection Ex as Ex.
    assert (b = bezier_of axes (combined M dim cps) None) as Eb'; [|now rewrite <- Eb'].
    rewrite <- Ex. unfold bezier_of, combined. f_equal. rewrite map_map. cbn [ax_degree]. transitivity (map (fun p => BezierAxis p) (map fst axes')); [now rewrite map_map|].
    unfold axes'. rewrite (refined_degrees tol axes knots K). now rewrite map_map. }
  split.
  - destruct (HF 0 cps0 L0) as [(_ & Lw & _) _]. cbn [bezier_of sp_cps] in Lw. unfold combined in Lw. rewrite map_length in Lw. split.
    + rewrite Lw. f_equal. unfold sp_res, bezier_of. cbn [sp_axes]. rewrite map_map. reflexivity.
    + destruct Cm as [_ FM]. rewrite Forall_forall in *. intros row Hrow. apply FM. unfold pick in Ep. apply P_Integrate.all_some_in with (x := row) in Ep; auto.
      apply in_map_iff in Ep as (i & Ei & _). now apply nth_error_In in Ei.
  - intros cps dim ts us d L EP Hd. now apply (HF dim cps L).
Qed.

(** * Weights *)
Lemma map_nth_lt {A B} (f : A -> B) l i x y : i < length l -> nth i (map f l) y = f (nth i l x).
Proof. revert i. induction l as [|a l IH]; intros [|i] H; cbn [length] in H; try lia; cbn [map nth]; [reflexivity|]. apply IH. lia. Qed.
Lemma combined_nth M dim cps i d : d < dim -> nth d (nth i (combined M dim cps) []) 0%Qc = qsum (map (fun rc => fst rc * nth d (snd rc) 0)%Qc (combine (nth i M []) cps)).
Proof.
  intros Hd. unfold combined. destruct (Nat.lt_ge_cases i (length M)) as [Hi|Hi].
  - rewrite (map_nth_lt _ _ _ [] _) by exact Hi. rewrite (map_nth_lt _ _ _ 0 _) by (now rewrite seq_length). rewrite seq_nth by exact Hd. reflexivity.
  - rewrite (nth_overflow M) by exact Hi. rewrite (nth_overflow (map _ M)) by (now rewrite map_length). now destruct d.
Qed.
Lemma nth_singletons ws i : nth 0 (nth i (map (fun w : Qc => [w]) ws) []) 0%Qc = nth i ws 0%Qc.
Proof. revert i. induction ws as [|w ws IH]; intros [|i]; cbn [map nth]; auto. Qed.
Lemma nth_hd M ws i : nth i (weights_of M ws) 0%Qc = nth 0 (nth i (combined M 1 (map (fun w => [w]) ws)) []) 0%Qc.
Proof. unfold weights_of. generalize (combined M 1 (map (fun w => [w]) ws)). intros l. revert i. induction l as [|x l IH]; intros [|i]; cbn [map nth]; auto; destruct x; reflexivity. Qed.
Lemma nth_weighted ws cps i d : length ws = length cps -> nth d (nth i (weighted ws cps) []) 0%Qc = (nth i ws 0 * nth d (nth i cps []) 0)%Qc.
Proof.
  revert cps i. induction ws as [|w ws IH]; intros [|p cps] i L; try discriminate L; [destruct i, d; cbn; ring|]. destruct i as [|i].
  - cbn [weighted combine map nth fst snd]. destruct (Nat.lt_ge_cases d (length p)) as [H|H]; [now rewrite (map_nth_lt _ _ _ 0%Qc _)|]. rewrite !nth_overflow; [ring|exact H|now rewrite map_length].
  - cbn [nth]. rewrite <- IH by (injection L; auto). reflexivity.
Qed.
Lemma nth_projected ws cps i d : length ws = length cps -> Forall (fun w => 0 < w)%Qc ws -> (nth i ws 0 * nth d (nth i (projected ws cps) []) 0)%Qc = nth d (nth i cps []) 0%Qc.
Proof.
  revert cps i. induction ws as [|w ws IH]; intros [|p cps] i L F; try discriminate L; [destruct i, d; cbn; ring|]. inversion F; subst. destruct i as [|i].
  - cbn [projected combine map nth fst snd]. assert (w <> 0%Qc) as Nw by (intros ->; eapply Qclt_not_eq; eauto). destruct (Nat.lt_ge_cases d (length p)) as [H|H].
    + rewrite (map_nth_lt _ _ _ 0%Qc _) by exact H. now field.
    + rewrite !nth_overflow; [ring|exact H|now rewrite map_length].
  - cbn [nth]. rewrite <- (IH cps i) by (auto; injection L; auto). reflexivity.
Qed.
Lemma combination_pos row ws : Forall (fun x => 0 <= x)%Qc row -> qsum row = 1%Qc -> length row = length ws -> Forall (fun w => 0 < w)%Qc ws ->
  (0 < qsum (map (fun rc => fst rc * nth 0 (snd rc) 0)%Qc (combine row (map (fun w => [w]) ws))))%Qc.
Proof.
  intros F S L P.
  assert ((0 <= qsum (map (fun rc => fst rc * nth 0 (snd rc) 0)%Qc (combine row (map (fun w => [w]) ws))) /\ (0 < qsum row -> 0 < qsum (map (fun rc => fst rc * nth 0 (snd rc) 0)%Qc (combine row (map (fun w => [w]) ws))))))%Qc as [_ H].
  { clear S. revert ws L P. induction F as [|x row Hx F IH]; intros [|w ws] L P; try discriminate L; [cbn; split; [apply Qcle_refl|auto]|].
    inversion P as [|? ? Hw P']; subst. cbn [map combine fst snd nth qsum fold_right]. destruct (IH ws) as [I1 I2]; [injection L; auto|auto|].
    set (q := qsum row) in *. fold (qsum row). fold q. set (r := qsum (map _ _)) in *. clearbody q r. split; [qnra|]. intros Q. destruct (Qclt_le_dec 0 q) as [Hq|Hq]; [specialize (I2 Hq); qnra|]. assert (0 < x)%Qc as Hx' by qlra. pose proof (Qc_mul_pos x w Hx' Hw). qlra. }
  apply H. rewrite S. reflexivity.
Qed.
Lemma weights_positive rows n M ws : convex_matrix rows n M -> length ws = n -> Forall (fun w => 0 < w)%Qc ws -> Forall (fun w => 0 < w)%Qc (weights_of M ws) /\ length (weights_of M ws) = rows.
Proof.
  intros [L F] Lw P. split; [|unfold weights_of, combined; now rewrite !map_length]. unfold weights_of, combined. rewrite map_map. apply Forall_map. rewrite Forall_forall in *. intros row Hr. destruct (F row Hr) as (Lr & Pr & Sr).
  cbn [seq map hd]. apply combination_pos; auto; try congruence. now apply Forall_forall.
Qed.
Lemma rational_value axes cps ws us d : sp_value (Spl axes cps (Some ws)) us d =
  (tensor (sp_basis axes us) (fun ix => nth (flat_id (map ax_n axes) ix) ws 0 * nth d (nth (flat_id (map ax_n axes) ix) cps []) 0) / tensor (sp_basis axes us) (fun ix => nth (flat_id (map ax_n axes) ix) ws 0))%Qc.
Proof. reflexivity. Qed.
Lemma rational_split axes cps ws hom one us d :
  (forall i, nth i ws 0 * nth d (nth i cps []) 0 = nth d (nth i hom []) 0)%Qc -> (forall i, nth i ws 0 = nth 0 (nth i one []) 0)%Qc ->
  sp_value (Spl axes cps (Some ws)) us d = (sp_value (Spl axes hom None) us d / sp_value (Spl axes one None) us 0)%Qc.
Proof.
  intros H1 H2. rewrite rational_value. unfold sp_value at 1 2. cbn [sp_weights sp_axes]. unfold sp_res. cbn [sp_axes sp_cps]. unfold net.
  assert (forall a b c e : Qc, a = c -> b = e -> a / b = c / e)%Qc as D by (intros; now subst). apply D; apply tensor_ext_c; auto.
Qed.
Lemma extraction_rational tol axes knots : (0 < tol)%Qc -> axes <> [] -> knots_of tol axes knots ->
  exists Ms, extraction_matrices tol axes = Some Ms /\
  forall c, below (element_counts knots) c -> exists M, nth_error Ms (flat_id (element_counts knots) c) = Some M /\
    forall cps ws, length cps = n_points axes -> length ws = n_points axes -> Forall (fun w => 0 < w)%Qc ws ->
      Forall (fun w => 0 < w)%Qc (weights_of M ws) /\
      forall dim ts us d, element_parameter knots c ts us -> d < dim ->
      sp_value (bezier_of axes (projected (weights_of M ws) (combined M dim (weighted ws cps))) (Some (weights_of M ws))) ts d = sp_value (bspline_of axes cps (Some ws)) us d.
Proof.
  intros Ht Na K. destruct (extraction_ok tol axes knots Ht Na K) as (Ms & E & _ & H). exists Ms. split; [exact E|]. intros c Bc. destruct (H c Bc) as (M & N & Cm & V). exists M. split; [exact N|].
  intros cps ws Lc Lw P. destruct (weights_positive _ _ _ ws Cm Lw P) as [P' L']. split; [exact P'|]. intros dim ts us d EP Hd. unfold bezier_of, bspline_of.
  rewrite (rational_split _ (projected _ _) _ (combined M dim (weighted ws cps)) (combined M 1 (map (fun w => [w]) ws))); [|intros i; apply nth_projected; auto; rewrite L'; destruct Cm as [-> _] || unfold combined; rewrite ?map_length; destruct Cm; congruence|apply nth_hd].
  rewrite (rational_split _ cps ws (weighted ws cps) (map (fun w => [w]) ws)); [|intros i; symmetry; apply nth_weighted; congruence|intros i; now rewrite nth_singletons].
  assert (forall a b c e : Qc, a = c -> b = e -> a / b = c / e)%Qc as D by (intros; now subst). apply D.
  - apply (V (weighted ws cps) dim ts us d); auto. unfold weighted. rewrite map_length, combine_length. lia.
  - apply (V (map (fun w => [w]) ws) 1 ts us 0); auto. now rewrite map_length.
Qed.
