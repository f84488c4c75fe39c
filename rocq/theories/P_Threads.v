(** Proofs about the thread distribution model. *)
From Coq Require Import List ZArith Lia Permutation Bool.
From Verif Require Import Base M_Threads S_Threads.
Import ListNotations.
Local Open Scope Z_scope.

Lemma quot_div_pos a b : 0 <= a -> 0 < b -> Z.quot a b = a / b.
Proof. intros. apply Z.quot_div_nonneg; lia. Qed.

Lemma chunk_bounds total n :
  0 < n -> 0 <= total ->
  let c := (total + n - 1) / n in total <= n * c < total + n.
Proof.
  intros Hn Ht c. subst c.
  pose proof (Z.div_mod (total + n - 1) n ltac:(lia)).
  pose proof (Z.mod_pos_bound (total + n - 1) n ltac:(lia)). lia.
Qed.

(** Consecutive chunks concatenate to one range. *)
Lemma chunks_concat c k :
  0 <= c -> 0 <= k ->
  flat_map chunk_indices
    (map (fun i => Task (i * c) ((i + 1) * c) i) (zrange 0 k)) = zrange 0 (k * c).
Proof.
  intros Hc Hk. replace k with (Z.of_nat (Z.to_nat k)) by lia.
  generalize (Z.to_nat k) as n. clear k Hk. induction n.
  - cbn. now rewrite zrange_nil by lia.
  - rewrite (zrange_app 0 (Z.of_nat n)) by lia.
    rewrite map_app, flat_map_app, IHn.
    rewrite (zrange_cons (Z.of_nat n)) by lia. rewrite (zrange_nil (Z.of_nat n + 1)) by lia.
    cbn [map flat_map]. rewrite app_nil_r. unfold chunk_indices. cbn [t_begin t_end].
    rewrite <- zrange_app by nia. f_equal. lia.
Qed.

Lemma launched_visited hc total n ts :
  0 <= total ->
  launched (nthread_execution hc total n) = Some ts ->
  let k := effective_threads hc n in
  (k <= 1 /\ flat_map chunk_indices ts = zrange 0 total) \/
  (1 < k /\
   let m := Z.min total k in let c := (total + m - 1) / m in
   0 < m /\ 0 < c /\ total <= m * c < total + m /\
   flat_map chunk_indices ts = zrange 0 ((m - 1) * c) ++ zrange ((m - 1) * c) total).
Proof.
  intros Ht H k. unfold nthread_execution in H.
  fold (effective_threads hc n) in H. fold k in H.
  destruct (Z.leb_spec k 1).
  - left. split; auto. cbn in H. injection H as <-. cbn. now rewrite app_nil_r.
  - right. split; [lia|]. intros m c.
    fold m in H. destruct (Z.eqb_spec m 0); [discriminate|].
    cbn in H. injection H as <-.
    assert (0 < m) by lia.
    rewrite quot_div_pos by lia. fold c.
    pose proof (chunk_bounds total m ltac:(lia) Ht) as Hb. cbn in Hb. fold c in Hb.
    assert (0 < c) by nia.
    repeat split; try lia.
    rewrite flat_map_app, chunks_concat by lia. f_equal.
    cbn. now rewrite app_nil_r.
Qed.

Lemma chunk_nodup hc total n ts :
  0 <= total ->
  launched (nthread_execution hc total n) = Some ts ->
  NoDup (flat_map chunk_indices ts).
Proof.
  intros Ht H. destruct (launched_visited _ _ _ _ Ht H) as [[_ ->]|[_ (?&?&?&->)]].
  - apply NoDup_zrange.
  - apply NoDup_app_iff. repeat split; try apply NoDup_zrange.
    intros x. rewrite !in_zrange. lia.
Qed.

Lemma chunk_all_in hc total n ts :
  0 <= total ->
  launched (nthread_execution hc total n) = Some ts ->
  forall i, 0 <= i < total -> In i (flat_map chunk_indices ts).
Proof.
  intros Ht H i Hi. destruct (launched_visited _ _ _ _ Ht H) as [[_ ->]|[_ (?&?&?&->)]].
  - now apply in_zrange.
  - apply in_app_iff. rewrite !in_zrange. lia.
Qed.

Lemma chunk_in_range_iff hc total n ts :
  0 <= total ->
  launched (nthread_execution hc total n) = Some ts ->
  ((forall i, In i (flat_map chunk_indices ts) -> 0 <= i < total) <->
   chunks_fit total (effective_threads hc n)).
Proof.
  intros Ht H.
  destruct (launched_visited _ _ _ _ Ht H) as [[Hk ->]|[Hk (Hm&Hc&Hb&->)]].
  - split; [intros; left; auto|]. intros _ i. now rewrite in_zrange.
  - set (m := Z.min total (effective_threads hc n)) in *.
    set (c := (total + m - 1) / m) in *. split.
    + intros Hr. right. fold m. cbn. fold c.
      destruct (Z_le_gt_dec ((m - 1) * c) total) as [|Hgt]; [auto|].
      assert (0 <= (m - 1) * c - 1 < total); [|lia].
      apply Hr. apply in_app_iff. left. apply in_zrange. nia.
    + intros [Hf|Hf]; [lia|]. cbn in Hf. fold m in Hf. fold c in Hf.
      intros i. rewrite in_app_iff, !in_zrange. nia.
Qed.

Lemma chunk_exact_iff hc total n ts :
  0 <= total ->
  launched (nthread_execution hc total n) = Some ts ->
  (processed_exactly_once total (flat_map chunk_indices ts) <->
   chunks_fit total (effective_threads hc n)).
Proof.
  intros Ht H. rewrite <- (chunk_in_range_iff _ _ _ _ Ht H). split.
  - intros HP i Hi. apply in_zrange. eapply Permutation_in; eauto.
  - intros Hr. apply NoDup_Permutation.
    + eapply chunk_nodup; eauto.
    + apply NoDup_zrange.
    + intros x. rewrite in_zrange. split; auto. eapply chunk_all_in; eauto.
Qed.

Lemma launch_crash_iff hc total n :
  0 <= total ->
  (launched (nthread_execution hc total n) = None <->
   total = 0 /\ 2 <= effective_threads hc n).
Proof.
  intros Ht. unfold nthread_execution. fold (effective_threads hc n).
  set (k := effective_threads hc n).
  destruct (Z.leb_spec k 1); cbn.
  - split; [discriminate|lia].
  - destruct (Z.eqb_spec (Z.min total k) 0); cbn.
    + split; auto. lia.
    + split; [discriminate|lia].
Qed.

Lemma chunks_fit_sufficient total k :
  0 < total ->
  (k <= 2 \/ total <= k \/ (k - 1) * (k - 1) <= total \/ total mod k = 0) ->
  chunks_fit total k.
Proof.
  intros Ht H. unfold chunks_fit.
  destruct (Z_le_gt_dec k 1); [left; auto|]. right. cbn.
  set (n := Z.min total k).
  pose proof (chunk_bounds total n ltac:(lia) ltac:(lia)) as Hb. cbn in Hb.
  set (c := (total + n - 1) / n) in *.
  assert (Hc : 1 <= c) by nia.
  destruct H as [H|[H|[H|H]]].
  - assert (n <= 2) by lia. assert (n = 1 \/ n = 2) as [E|E] by lia;
    rewrite E in *; lia.
  - assert (n = total) by lia. subst n. rewrite H0 in *.
    assert (c = 1). { subst c. symmetry. apply Z.div_unique with (r := total - 1); lia. }
    lia.
  - destruct (Z_le_gt_dec total k).
    + assert (n = total) by lia. subst n. rewrite H0 in *.
      assert (c = 1). { subst c. symmetry. apply Z.div_unique with (r := total - 1); lia. }
      lia.
    + assert (n = k) by lia. rewrite H0 in *. nia.
  - destruct (Z_le_gt_dec total k).
    + assert (n = total) by lia. subst n. rewrite H0 in *.
      assert (c = 1). { subst c. symmetry. apply Z.div_unique with (r := total - 1); lia. }
      lia.
    + assert (n = k) by lia. rewrite H0 in *.
      pose proof (Z.div_mod total k ltac:(lia)).
      assert (c = total / k). { nia. }
      nia.
Qed.

(** * Strided loops *)

Lemma strided_run_fun n total i l1 l2 :
  strided_run n total i l1 -> strided_run n total i l2 -> l1 = l2.
Proof.
  intros H; revert l2; induction H; intros l2 H2; inversion H2; subst; auto; try lia.
  f_equal. auto.
Qed.

Lemma strided_diverges n total i l :
  n <= 0 -> i < total -> ~ strided_run n total i l.
Proof.
  intros Hn Hi H. induction H; [lia|]. apply IHstrided_run. lia.
Qed.

Lemma strided_fuel_run fuel n total i :
  1 <= n -> (Z.to_nat (total - i) <= fuel)%nat ->
  strided_run n total i (strided_fuel fuel n total i).
Proof.
  intros Hn. revert i; induction fuel; cbn; intros i Hf.
  - constructor. lia.
  - destruct (Z.ltb_spec i total); constructor; auto. apply IHfuel. lia.
Qed.

Lemma strided_indices_run n total t :
  1 <= n -> strided_run n total (t_id t) (strided_indices n total t).
Proof. intros. now apply strided_fuel_run. Qed.

Lemma strided_run_in n total i l :
  1 <= n -> strided_run n total i l ->
  forall x, In x l <-> (i <= x < total /\ (x - i) mod n = 0).
Proof.
  intros Hn H. induction H; intros x; cbn.
  - split; [tauto|lia].
  - rewrite IHstrided_run. split.
    + intros [->|[H1 H2]].
      * rewrite Z.sub_diag. split; [lia|]. apply Z.mod_0_l. lia.
      * split; [lia|]. rewrite <- H2. replace (x - i) with (x - (i + n) + 1 * n) by lia.
        apply Z.mod_add. lia.
    + intros [H1 H2]. destruct (Z.eq_dec i x); auto. right.
      apply Z.mod_divide in H2; [|lia]. destruct H2 as [q Hq].
      assert (1 <= q) by nia. split; [nia|].
      replace (x - (i + n)) with ((q - 1) * n) by lia. apply Z.mod_mul. lia.
Qed.

Lemma strided_run_nodup n total i l :
  1 <= n -> strided_run n total i l -> NoDup l.
Proof.
  intros Hn H. induction H; constructor; auto.
  intros Hin. rewrite (strided_run_in _ _ _ _ Hn H0) in Hin. lia.
Qed.

(** Thread ids of a launch. *)
Lemma launched_ids hc total n ts :
  0 < total ->
  launched (nthread_execution hc total n) = Some ts ->
  map t_id ts = zrange 0 (Z.max 1 (Z.min total (effective_threads hc n))).
Proof.
  intros Ht H. unfold nthread_execution in H. fold (effective_threads hc n) in H.
  set (k := effective_threads hc n) in *.
  destruct (Z.leb_spec k 1).
  - cbn in H. injection H as <-. replace (Z.max 1 (Z.min total k)) with 1 by lia. reflexivity.
  - destruct (Z.eqb_spec (Z.min total k) 0); [discriminate|].
    cbn in H. injection H as <-.
    replace (Z.max 1 (Z.min total k)) with (Z.min total k) by lia.
    rewrite map_app, map_map. cbn. rewrite map_id.
    rewrite (zrange_app 0 (Z.min total k - 1) (Z.min total k)) by lia. f_equal.
    rewrite zrange_cons by lia. now rewrite zrange_nil by lia.
Qed.

Lemma strided_exact hc total n ts ls :
  0 < total -> 1 <= n ->
  launched (nthread_execution hc total n) = Some ts ->
  Forall2 (fun t l => strided_run n total (t_id t) l) ts ls ->
  processed_exactly_once total (concat ls).
Proof.
  intros Ht Hn H HF.
  pose proof (launched_ids _ _ _ _ Ht H) as Hids.
  assert (Hk : effective_threads hc n = n)
    by (unfold effective_threads; destruct (Z.ltb_spec n 0); lia).
  rewrite Hk in Hids.
  set (m := Z.max 1 (Z.min total n)) in *.
  assert (Hin : forall x, In x (concat ls) <->
            exists i, In i (map t_id ts) /\ i <= x < total /\ (x - i) mod n = 0).
  { clear Hids H. induction HF; cbn.
    - split; [tauto|]. intros (? & [] & _).
    - intros z. rewrite in_app_iff, IHHF, (strided_run_in _ _ _ _ Hn H). split.
      + intros [?|(i & ? & ?)]; [exists (t_id x)|exists i]; tauto.
      + intros (i & [<-|?] & ?); [left|right; exists i]; tauto. }
  apply NoDup_Permutation; [| apply NoDup_zrange |].
  - assert (Hnd : NoDup (map t_id ts)) by (rewrite Hids; apply NoDup_zrange).
    assert (Hlt : forall t, In t ts -> 0 <= t_id t < n).
    { intros t Hti. assert (In (t_id t) (map t_id ts)) by now apply in_map.
      rewrite Hids, in_zrange in H0. lia. }
    clear Hids H Hin. induction HF; cbn; [constructor|].
    cbn in Hnd. apply NoDup_cons_iff in Hnd. destruct Hnd as [Hni Hnd].
    apply NoDup_app_iff. repeat split.
    + eapply strided_run_nodup; eauto.
    + apply IHHF; auto. intros; apply Hlt; now right.
    + intros z Hz Hz2.
      rewrite (strided_run_in _ _ _ _ Hn H) in Hz.
      assert (exists i, In i (map t_id l) /\ i <= z < total /\ (z - i) mod n = 0)
        as (i & Hi & Hr & Hmod).
      { clear - HF Hz2 Hn. induction HF; cbn in *; [tauto|].
        apply in_app_iff in Hz2. destruct Hz2 as [Hz2|Hz2].
        - rewrite (strided_run_in _ _ _ _ Hn H) in Hz2. exists (t_id x). tauto.
        - destruct (IHHF Hz2) as (i & ? & ?). exists i; tauto. }
      assert (0 <= i < n).
      { apply in_map_iff in Hi. destruct Hi as (t & <- & Hti). apply Hlt. now right. }
      assert (0 <= t_id x < n) by (apply Hlt; now left).
      assert (i <> t_id x) by (intros ->; auto).
      destruct Hz as [Hz1 Hz3].
      apply Z.mod_divide in Hz3; [|lia]. apply Z.mod_divide in Hmod; [|lia].
      destruct Hz3 as [q1 Hq1], Hmod as [q2 Hq2].
      assert (Hq : i - t_id x = (q1 - q2) * n) by lia.
      assert (q1 - q2 = 0 \/ 1 <= q1 - q2 \/ q1 - q2 <= -1) as [Hc|[Hc|Hc]] by lia; [rewrite Hc in Hq; lia| nia | nia].
  - intros x. rewrite Hin, Hids, in_zrange. split.
    + intros (i & Hi & ? & ?). apply in_zrange in Hi. lia.
    + intros Hx. exists (x mod n).
      pose proof (Z.mod_pos_bound x n ltac:(lia)).
      pose proof (Z.div_mod x n ltac:(lia)).
      assert (0 <= x / n) by (apply Z.div_pos; lia).
      assert (x mod n <= x) by nia.
      repeat split; try lia.
      * apply in_zrange. lia.
      * replace (x - x mod n) with ((x / n) * n) by lia. apply Z.mod_mul; lia.
Qed.

(** * Interleavings *)

Lemma interleaving_filter {A} (p : A -> bool) ts s :
  interleaving ts s -> interleaving (map (filter p) ts) (filter p s).
Proof.
  intros H. induction H.
  - constructor. intros t Ht. apply in_map_iff in Ht. destruct Ht as (u & <- & Hu).
    now rewrite (H u Hu).
  - rewrite map_app in *. cbn in *. destruct (p a); auto. now constructor.
Qed.

Lemma interleaving_single {A} (ts : list (list A)) s :
  interleaving ts s ->
  forall pre t post, ts = pre ++ t :: post ->
  (forall u, In u (pre ++ post) -> u = []) -> s = t.
Proof.
  intros H. induction H; intros pre0 t0 post0 E Hn.
  - symmetry. apply H. rewrite E. apply in_elt.
  - assert (pre = pre0 /\ a :: t = t0 /\ post = post0) as (-> & <- & ->).
    { clear - E Hn. revert pre0 E Hn. induction pre as [|p pre IH]; intros [|p0 pre0] E Hn.
      - cbn in E. injection E; auto.
      - cbn in E. injection E as <- E.
        exfalso. assert (a :: t = []); [|discriminate]. apply Hn. now left.
      - cbn in E. injection E as <- <-.
        exfalso. assert (a :: t = []); [|discriminate]. apply Hn.
        cbn. apply in_elt.
      - cbn in E. injection E as <- E.
        destruct (IH pre0) as (<- & <- & <-); auto.
        intros u Hu. apply Hn. now right. }
    f_equal. eapply IHinterleaving; eauto.
Qed.

Lemma interleaving_empty {A} (ts : list (list A)) s :
  interleaving ts s -> (forall t, In t ts -> t = []) -> s = [].
Proof.
  intros H. destruct H; auto. intros E.
  assert (a :: t = []) by (apply E; apply in_elt). discriminate.
Qed.

Lemma run_writes_cell {V} (s : list (write V)) m a :
  run_writes s m a = last_write (filter (fun w => a =? fst w) s) a (m a).
Proof.
  unfold run_writes, last_write. revert m; induction s as [|w s IH]; intros m; cbn; auto.
  rewrite IH. unfold store. destruct (Z.eqb_spec a (fst w)); cbn; auto.
  subst a. rewrite Z.eqb_refl. reflexivity.
Qed.

Definition kernel_local {V} (dim : Z) (kernel : Z -> list (write V)) : Prop :=
  forall i w, In w (kernel i) -> 0 <= fst w < dim.

Lemma block_filter_other {V} dim (kernel : Z -> list (write V)) i a :
  kernel_local dim kernel -> 0 < dim -> i <> a / dim ->
  filter (fun w => a =? fst w) (block_writes dim kernel i) = [].
Proof.
  intros HK Hd Hi. apply filter_none. intros w Hw.
  unfold block_writes in Hw. apply in_map_iff in Hw. destruct Hw as (u & <- & Hu).
  cbn. apply Z.eqb_neq. intros ->. apply Hi. apply HK in Hu.
  rewrite Z.add_comm, Z.div_add by lia. rewrite Z.div_small by lia. lia.
Qed.

Lemma flat_map_filter_one {V} dim (kernel : Z -> list (write V)) a l :
  kernel_local dim kernel -> 0 < dim -> NoDup l ->
  filter (fun w => a =? fst w) (flat_map (block_writes dim kernel) l) =
  if in_dec Z.eq_dec (a / dim) l
  then filter (fun w => a =? fst w) (block_writes dim kernel (a / dim)) else [].
Proof.
  intros HK Hd. induction l as [|i l IH]; intros Hnd; cbn [flat_map].
  - reflexivity.
  - apply NoDup_cons_iff in Hnd. destruct Hnd as [Hi Hnd].
    rewrite filter_app, IH by auto.
    destruct (Z.eq_dec i (a / dim)) as [->|Hne].
    + destruct (in_dec Z.eq_dec (a / dim) (a / dim :: l)) as [_|n]; [|exfalso; apply n; now left].
      destruct (in_dec Z.eq_dec (a / dim) l); [tauto|]. now rewrite app_nil_r.
    + rewrite block_filter_other by auto. cbn [app].
      destruct (in_dec Z.eq_dec (a / dim) l), (in_dec Z.eq_dec (a / dim) (i :: l)) as [Hx|Hx]; auto.
      * exfalso; apply Hx; now right.
      * destruct Hx; [congruence|tauto].
Qed.

(** Any interleaving of workers that together visit every item exactly once
    leaves in cell a what the kernel of item a/dim wrote there last. *)
Lemma interleaving_result {V} dim (kernel : Z -> list (write V)) (ls : list (list Z))
  total s m a :
  kernel_local dim kernel -> 0 < dim ->
  processed_exactly_once total (concat ls) ->
  interleaving (map (flat_map (block_writes dim kernel)) ls) s ->
  run_writes s m a =
  if (0 <=? a) && (a <? total * dim)
  then last_write (kernel (a / dim)) (a mod dim) (m a) else m a.
Proof.
  intros HK Hd HP HI.
  assert (Hnd : NoDup (concat ls)).
  { eapply Permutation_NoDup; [symmetry; exact HP|apply NoDup_zrange]. }
  assert (Hin : forall x, In x (concat ls) <-> 0 <= x < total).
  { intros x. rewrite <- in_zrange. split; apply Permutation_in; auto. now symmetry. }
  rewrite run_writes_cell.
  pose proof (interleaving_filter (fun w => a =? fst w) _ _ HI) as HF.
  rewrite map_map in HF.
  pose proof (Z.div_mod a dim ltac:(lia)) as Hdm.
  pose proof (Z.mod_pos_bound a dim ltac:(lia)) as Hmb.
  destruct ((0 <=? a) && (a <? total * dim)) eqn:Ea.
  - assert (Hr : 0 <= a / dim < total) by nia.
    apply Hin in Hr. apply in_concat in Hr. destruct Hr as (l & Hl & Hal).
    apply in_split in Hl. destruct Hl as (pre & post & ->).
    rewrite concat_app in Hnd. cbn in Hnd.
    apply NoDup_app_iff in Hnd. destruct Hnd as (Hnd1 & Hnd2 & Hnd3).
    apply NoDup_app_iff in Hnd2. destruct Hnd2 as (Hnd2 & Hnd4 & Hnd5).
    rewrite map_app in HF. cbn [map] in HF.
    assert (E : filter (fun w => a =? fst w) s =
                filter (fun w => a =? fst w) (flat_map (block_writes dim kernel) l)).
    { eapply interleaving_single; [exact HF|reflexivity|].
      intros u Hu. rewrite <- map_app in Hu. apply in_map_iff in Hu.
      destruct Hu as (l' & <- & Hl').
      assert (Hndl' : NoDup l' /\ ~ In (a / dim) l').
      { apply in_app_iff in Hl'. destruct Hl' as [Hl'|Hl'].
        - split.
          + apply in_split in Hl'. destruct Hl' as (p1 & p2 & ->).
            rewrite concat_app in Hnd1. cbn in Hnd1.
            apply NoDup_app_iff in Hnd1. destruct Hnd1 as (_ & Hx & _).
            apply NoDup_app_iff in Hx. tauto.
          + intros Hx. apply (Hnd3 (a / dim)).
            * apply in_concat. eauto.
            * apply in_app_iff. now left.
        - split.
          + apply in_split in Hl'. destruct Hl' as (p1 & p2 & ->).
            rewrite concat_app in Hnd4. cbn in Hnd4.
            apply NoDup_app_iff in Hnd4. destruct Hnd4 as (_ & Hx & _).
            apply NoDup_app_iff in Hx. tauto.
          + intros Hx. apply (Hnd5 (a / dim)); auto. apply in_concat. eauto. }
      destruct Hndl' as [Hndl' Hnin].
      rewrite flat_map_filter_one by auto.
      destruct (in_dec Z.eq_dec (a / dim) l'); tauto. }
    rewrite E, flat_map_filter_one by auto.
    destruct (in_dec Z.eq_dec (a / dim) l); [|tauto].
    unfold block_writes. clear - Hdm Hmb Hd. unfold last_write.
    generalize (m a) as v. induction (kernel (a / dim)) as [|w ws IH]; intros v; cbn; auto.
    destruct (Z.eqb_spec a (a / dim * dim + fst w)) as [E|E]; cbn;
    destruct (Z.eqb_spec (a mod dim) (fst w)) as [E'|E']; try lia; auto.
    replace (a =? a / dim * dim + fst w) with true by lia. apply IH.
  - assert (E : filter (fun w => a =? fst w) s = []).
    { apply interleaving_empty in HF; auto. intros t Htin.
      apply in_map_iff in Htin. destruct Htin as (l & <- & Hl).
      apply filter_none. intros w Hw. apply in_flat_map in Hw.
      destruct Hw as (i & Hi & Hw). unfold block_writes in Hw.
      apply in_map_iff in Hw. destruct Hw as (u & <- & Hu). cbn.
      apply HK in Hu. apply Z.eqb_neq.
      assert (0 <= i < total) by (apply Hin; apply in_concat; eauto).
      intros ->. nia. }
    rewrite E. reflexivity.
Qed.

(** No two different workers write the same cell. *)
Lemma interleaving_race_free {V} dim (kernel : Z -> list (write V)) (ls : list (list Z)) total
  (j k : nat) l1 l2 w1 w2 :
  kernel_local dim kernel -> 0 < dim ->
  processed_exactly_once total (concat ls) ->
  j <> k -> nth_error ls j = Some l1 -> nth_error ls k = Some l2 ->
  In w1 (flat_map (block_writes dim kernel) l1) ->
  In w2 (flat_map (block_writes dim kernel) l2) ->
  fst w1 <> fst w2.
Proof.
  intros HK Hd HP Hjk H1 H2 Hw1 Hw2 E.
  assert (Hnd : NoDup (concat ls)).
  { eapply Permutation_NoDup; [symmetry; exact HP|apply NoDup_zrange]. }
  apply in_flat_map in Hw1. destruct Hw1 as (i1 & Hi1 & Hw1).
  apply in_flat_map in Hw2. destruct Hw2 as (i2 & Hi2 & Hw2).
  unfold block_writes in *. apply in_map_iff in Hw1, Hw2.
  destruct Hw1 as (u1 & <- & Hu1), Hw2 as (u2 & <- & Hu2). cbn in E.
  apply HK in Hu1, Hu2. assert (i1 = i2) by nia. subst i2.
  clear - Hnd Hjk H1 H2 Hi1 Hi2.
  revert j k Hjk H1 H2. induction ls as [|l ls IH]; intros j k Hjk H1 H2.
  - destruct j; discriminate.
  - cbn in Hnd. apply NoDup_app_iff in Hnd. destruct Hnd as (_ & Hnd2 & Hnd3).
    destruct j, k; cbn in *; try congruence.
    + injection H1 as ->. apply (Hnd3 i1); auto. apply in_concat.
      exists l2. split; auto. eapply nth_error_In; eauto.
    + injection H2 as ->. apply (Hnd3 i1); auto. apply in_concat.
      exists l1. split; auto. eapply nth_error_In; eauto.
    + apply (IH Hnd2 j k); auto.
Qed.

(** * Whole calls *)

Lemma chunk_result {V} dim (kernel : Z -> list (write V)) hc total n ts s m a :
  kernel_local dim kernel -> 0 < dim -> 0 <= total ->
  launched (nthread_execution hc total n) = Some ts ->
  chunks_fit total (effective_threads hc n) ->
  interleaving (map (worker_trace dim kernel chunk_indices) ts) s ->
  run_writes s m a =
  if (0 <=? a) && (a <? total * dim)
  then last_write (kernel (a / dim)) (a mod dim) (m a) else m a.
Proof.
  intros HK Hd Ht H Hfit HI.
  apply interleaving_result with (ls := map chunk_indices ts); auto.
  - rewrite <- flat_map_concat_map. now apply (chunk_exact_iff _ _ _ _ Ht H).
  - rewrite map_map. exact HI.
Qed.

Lemma strided_result {V} dim (kernel : Z -> list (write V)) hc total n ts ls s m a :
  kernel_local dim kernel -> 0 < dim -> 0 < total -> 1 <= n ->
  launched (nthread_execution hc total n) = Some ts ->
  Forall2 (fun t l => strided_run n total (t_id t) l) ts ls ->
  interleaving (map (flat_map (block_writes dim kernel)) ls) s ->
  run_writes s m a =
  if (0 <=? a) && (a <? total * dim)
  then last_write (kernel (a / dim)) (a mod dim) (m a) else m a.
Proof.
  intros HK Hd Ht Hn H HF HI.
  apply interleaving_result with (ls := ls); auto.
  eapply strided_exact; eauto.
Qed.

(** * ExtractAllBoundarySplines *)

Lemma option_concat_some {A B} (f : A -> list B) l :
  option_concat (map (fun x => Some (f x)) l) = Some (flat_map f l).
Proof. induction l; cbn; auto. now rewrite IHl. Qed.

Lemma option_concat_none {A} (l : list (option (list A))) :
  In None l -> option_concat l = None.
Proof.
  induction l as [|[x|] l IH]; cbn; intros H; auto.
  - tauto.
  - destruct H as [H|H]; [discriminate|]. now rewrite IH.
Qed.

Lemma option_concat_app {A} (l1 l2 : list (option (list A))) :
  option_concat (l1 ++ l2) =
  match option_concat l1, option_concat l2 with
  | Some x, Some y => Some (x ++ y)
  | _, _ => None
  end.
Proof.
  induction l1 as [|[x|] l1 IH]; cbn; auto.
  - destruct (option_concat l2); auto.
  - rewrite IH. destruct (option_concat l1), (option_concat l2); auto.
    now rewrite app_assoc.
Qed.

Definition row_faces (interfaces : list (list Z)) (i : Z) : option (list (nat * nat)) :=
  match nth_error interfaces (Z.to_nat i) with
  | Some row => Some (boundary_faces_of_row (Z.to_nat i) row)
  | None => None
  end.

Lemma extract_tasks_flat interfaces ts :
  option_concat (map (extract_task interfaces) ts) =
  option_concat (map (row_faces interfaces) (flat_map chunk_indices ts)).
Proof.
  induction ts as [|t ts IH]; cbn; auto.
  rewrite map_app, option_concat_app, <- IH.
  unfold extract_task at 1. fold (row_faces interfaces).
  change (map _ (chunk_indices t)) with (map (row_faces interfaces) (chunk_indices t)).
  destruct (option_concat (map (row_faces interfaces) (chunk_indices t))); auto.
Qed.

Lemma extract_visits hc n :
  1 <= n -> exists ts, launched (nthread_execution hc n n) = Some ts /\
                       flat_map chunk_indices ts = zrange 0 n.
Proof.
  intros Hn. destruct (launched (nthread_execution hc n n)) as [ts|] eqn:E.
  - exists ts. split; auto.
    assert (Hk : effective_threads hc n = n)
      by (unfold effective_threads; destruct (Z.ltb_spec n 0); lia).
    destruct (launched_visited hc n n ts ltac:(lia) E) as [[_ ->]|[_ (Hm & Hc & Hb & ->)]]; auto.
    rewrite Hk in *. rewrite Z.min_id in *.
    assert (Ec : (n + n - 1) / n = 1).
    { symmetry. apply Z.div_unique with (r := n - 1); lia. }
    rewrite Ec in *. symmetry. replace ((n - 1) * 1) with (n - 1) by lia.
    apply zrange_app. lia.
  - apply launch_crash_iff in E; lia.
Qed.

Lemma extract_all_value hc interfaces n :
  1 <= n ->
  extract_all_boundary_splines hc (length interfaces) interfaces n =
  if n <=? Z.of_nat (length interfaces)
  then option_concat (map (row_faces interfaces) (zrange 0 n)) else None.
Proof.
  intros Hn. unfold extract_all_boundary_splines.
  rewrite Nat.eqb_refl. cbn [negb].
  destruct (Z.ltb_spec n 1); [lia|].
  destruct (extract_visits hc n Hn) as (ts & -> & Hv).
  rewrite extract_tasks_flat, Hv.
  destruct (Z.leb_spec n (Z.of_nat (length interfaces))); auto.
  apply option_concat_none. apply in_map_iff. exists (Z.of_nat (length interfaces)).
  split.
  - unfold row_faces. rewrite Nat2Z.id.
    destruct (nth_error interfaces (length interfaces)) eqn:E; auto.
    assert (nth_error interfaces (length interfaces) <> None) by congruence.
    apply nth_error_Some in H1. lia.
  - apply in_zrange. lia.
Qed.

Lemma in_boundary_faces_of_row i row f :
  In f (boundary_faces_of_row i row) <->
  fst f = i /\ exists z, nth_error row (snd f) = Some z /\ z < 0.
Proof.
  unfold boundary_faces_of_row. rewrite in_flat_map. destruct f as [p j]. cbn. split.
  - intros ([j' z] & Hin & Hf). cbn in Hf.
    destruct (Z.ltb_spec z 0); [|destruct Hf]. destruct Hf as [E|[]].
    injection E as <- <-. split; auto. exists z. split; auto.
    clear - Hin. assert (G : forall s, In (j', z) (combine (seq s (length row)) row) ->
      (s <= j')%nat /\ nth_error row (j' - s) = Some z).
    { clear. induction row as [|x row IH]; cbn; intros s H; [tauto|].
      destruct H as [H|H].
      - injection H as <- <-. split; auto. now rewrite Nat.sub_diag.
      - apply IH in H. destruct H as [H1 H2]. split; [lia|].
        replace (j' - s)%nat with (S (j' - S s)) by lia. exact H2. }
    apply G in Hin. destruct Hin as [_ Hin]. now rewrite Nat.sub_0_r in Hin.
  - intros (-> & z & Hz & Hneg). exists (j, z). split.
    + clear Hneg. assert (G : forall s, In ((s + j)%nat, z) (combine (seq s (length row)) row)).
      { revert j Hz. induction row as [|x row IH]; intros [|j] Hz s; cbn in *; try discriminate.
        - left. injection Hz as ->. f_equal. lia.
        - right. replace (s + S j)%nat with (S s + j)%nat by lia. now apply IH. }
      apply (G 0%nat).
    + cbn. replace (z <? 0) with true by lia. now left.
Qed.

Lemma NoDup_boundary_faces_of_row i row : NoDup (boundary_faces_of_row i row).
Proof.
  unfold boundary_faces_of_row. generalize 0%nat as s.
  induction row as [|z row IH]; intros s; cbn; [constructor|].
  assert (Hs : forall f, In f (flat_map (fun jf : nat * Z => if snd jf <? 0 then [(i, fst jf)] else [])
      (combine (seq (S s) (length row)) row)) -> (S s <= snd f)%nat).
  { intros f. rewrite in_flat_map. intros ((j & y) & Hin & Hf). apply in_combine_l in Hin.
    apply in_seq in Hin. cbn in Hf. destruct (y <? 0); [|destruct Hf].
    destruct Hf as [<-|[]]. cbn. lia. }
  destruct (z <? 0); cbn; [|apply IH].
  constructor; [|apply IH]. intros Hin. apply Hs in Hin. cbn in Hin. lia.
Qed.

Lemma option_concat_rows interfaces n :
  0 <= n <= Z.of_nat (length interfaces) ->
  exists fs, option_concat (map (row_faces interfaces) (zrange 0 n)) = Some fs /\
    NoDup fs /\
    forall f, In f fs <-> Z.of_nat (fst f) < n /\ all_boundary_faces interfaces f.
Proof.
  intros Hn. replace n with (Z.of_nat (Z.to_nat n)) in * by lia.
  remember (Z.to_nat n) as k eqn:Hk. clear n Hk. induction k.
  - exists []. split; [reflexivity|]. split; [constructor|]. intros f; cbn. split; [tauto|lia].
  - destruct IHk as (fs & E & Hnd & Hin); [lia|].
    rewrite (zrange_app 0 (Z.of_nat k)) by lia.
    rewrite (zrange_cons (Z.of_nat k)), (zrange_nil (Z.of_nat k + 1)) by lia.
    rewrite map_app, option_concat_app, E. cbn [map option_concat].
    unfold row_faces. rewrite Nat2Z.id.
    destruct (nth_error interfaces k) as [row|] eqn:Er.
    + rewrite app_nil_r. eexists. split; [reflexivity|]. split.
      * apply NoDup_app_iff. repeat split; auto using NoDup_boundary_faces_of_row.
        intros f Hf. apply Hin in Hf. rewrite in_boundary_faces_of_row. lia.
      * intros f. rewrite in_app_iff, Hin, in_boundary_faces_of_row. split.
        -- intros [[H1 H2]|[H1 (z & H2 & H3)]]; (split; [lia|]); auto.
           exists row, z. rewrite H1. auto.
        -- intros [H1 H2].
           destruct (Nat.eq_dec (fst f) k) as [Ek|Ek]; [right|left; split; [lia|auto]].
           split; auto. destruct H2 as (row' & z & H2 & H3 & H4).
           rewrite Ek in H2. exists z. split; congruence.
    + apply nth_error_None in Er. lia.
Qed.

Lemma extract_all_complete hc interfaces n fs :
  1 <= n ->
  extract_all_boundary_splines hc (length interfaces) interfaces n = Some fs ->
  n <= Z.of_nat (length interfaces) /\ NoDup fs /\
  forall f, In f fs <-> Z.of_nat (fst f) < n /\ all_boundary_faces interfaces f.
Proof.
  intros Hn H. rewrite extract_all_value in H by auto.
  destruct (Z.leb_spec n (Z.of_nat (length interfaces))); [|discriminate].
  destruct (option_concat_rows interfaces n ltac:(lia)) as (fs' & E & Hnd & Hin).
  rewrite E in H. injection H as <-. auto.
Qed.

Lemma extract_all_refuted :
  exists hc interfaces n fs f, 1 <= n /\
  extract_all_boundary_splines hc (length interfaces) interfaces n = Some fs /\
  all_boundary_faces interfaces f /\ ~ In f fs.
Proof.
  exists 8, [[-1; 2]; [1; -1]], 1, [(0%nat, 0%nat)], (1%nat, 1%nat).
  split; [lia|]. split; [reflexivity|]. split.
  - exists [1; -1], (-1). repeat split.
  - intros [E|[]]. discriminate E.
Qed.

Lemma chunk_refuted :
  exists hc total n ts, 0 < total /\
  launched (nthread_execution hc total n) = Some ts /\
  exists i, In i (flat_map chunk_indices ts) /\ ~ (0 <= i < total).
Proof.
  exists 8, 5, 4, [Task 0 2 0; Task 2 4 1; Task 4 6 2; Task 6 5 3].
  split; [lia|]. split; [reflexivity|]. exists 5. split; [|lia].
  vm_compute. tauto.
Qed.
