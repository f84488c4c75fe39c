(** Proofs about multipatch checks, numbering, queries and caches. *)
From Coq Require Import String List Arith ZArith Bool QArith Qcanon Lia Sorted Permutation.
From Verif Require Import Base BaseQc M_Grid S_Grid P_Grid M_Threads S_Threads P_Threads M_Boundaries S_Boundaries P_Boundaries
  M_Patches S_Patches.
Import ListNotations.
Local Open Scope nat_scope.

(** * Visited indices *)
Lemma zrange_seq n : map Z.to_nat (zrange 0 (Z.of_nat n)) = seq 0 n.
Proof.
  unfold zrange. rewrite Z.sub_0_r, Nat2Z.id, map_map.
  rewrite <- (map_id (seq 0 n)) at 2. apply map_ext. intros; lia.
Qed.

Lemma strided_visits hc total n tasks : 0 < total -> (1 <= n)%Z ->
  launched (nthread_execution hc (Z.of_nat total) n) = Some tasks ->
  Permutation (map Z.to_nat (flat_map (strided_indices n (Z.of_nat total)) tasks)) (seq 0 total).
Proof.
  intros T N L. rewrite <- zrange_seq. apply Permutation_map. rewrite flat_map_concat_map.
  apply (strided_exact hc _ n tasks); [lia|lia|exact L|].
  clear L. induction tasks; cbn; constructor; auto. now apply strided_indices_run.
Qed.

Lemma launched_some hc total n : 0 < total -> (1 <= n)%Z ->
  exists tasks, launched (nthread_execution hc (Z.of_nat total) n) = Some tasks.
Proof.
  intros T N. unfold nthread_execution. destruct (Z.ltb_spec n 0); [lia|].
  destruct (Z.leb_spec n 1); [eexists; reflexivity|].
  destruct (Z.eqb_spec (Z.min (Z.of_nat total) n) 0); [lia|]. eexists; reflexivity.
Qed.

Lemma chunk_visits hc total n tasks : (0 <= n)%Z ->
  launched (nthread_execution hc (Z.of_nat total) n) = Some tasks -> chunks_fit (Z.of_nat total) n ->
  Permutation (map Z.to_nat (flat_map chunk_indices tasks)) (seq 0 total).
Proof.
  intros N L F. rewrite <- zrange_seq. apply Permutation_map.
  assert (effective_threads hc n = n) as E by (unfold effective_threads; destruct (Z.ltb_spec n 0); lia).
  pose proof (chunk_exact_iff hc (Z.of_nat total) n tasks) as H. rewrite E in H.
  apply H; auto; lia.
Qed.
Lemma chunk_ids_run hc total n : (1 <= n)%Z -> 0 < total \/ n = 1%Z -> chunks_fit (Z.of_nat total) n ->
  exists ids, chunk_ids hc total n = Some ids /\ Permutation ids (seq 0 total).
Proof.
  intros N T F. unfold chunk_ids.
  assert (exists tasks, launched (nthread_execution hc (Z.of_nat total) n) = Some tasks) as (tasks & L).
  { destruct T as [T| ->]; [now apply launched_some|]. now exists [Task 0 (Z.of_nat total) 0]. }
  rewrite L. pose proof (chunk_visits hc total n tasks ltac:(lia) L F) as V.
  assert (forallb (fun i => i <? total) (map Z.to_nat (flat_map chunk_indices tasks)) = true) as ->; [|eauto].
  apply forallb_forall. intros i Hi. apply (Permutation_in _ V), in_seq in Hi. apply Nat.ltb_lt. lia.
Qed.
Lemma chunk_ids_fail hc total n : (1 <= n)%Z -> 0 < total -> ~ chunks_fit (Z.of_nat total) n ->
  chunk_ids hc total n = None.
Proof.
  intros N T F. unfold chunk_ids.
  destruct (launched_some hc total n T N) as (tasks & L). rewrite L.
  destruct (forallb _ _) eqn:A; [|easy]. exfalso. apply F. clear F.
  assert (effective_threads hc n = n) as E by (unfold effective_threads; destruct (Z.ltb_spec n 0); lia).
  rewrite forallb_forall in A.
  pose proof (chunk_in_range_iff hc (Z.of_nat total) n tasks) as H. rewrite E in H.
  apply H; auto; [lia|]. intros x Hx.
  assert (In (Z.to_nat x) (map Z.to_nat (flat_map chunk_indices tasks))) as Hm by now apply in_map.
  apply A, Nat.ltb_lt in Hm.
  assert (0 <= x)%Z; [|lia].
  destruct (launched_visited hc (Z.of_nat total) n tasks ltac:(lia) L) as [[_ X]|[_ (?&?&?&X)]]; rewrite X in Hx.
  - apply in_zrange in Hx. lia.
  - apply in_app_iff in Hx. rewrite !in_zrange in Hx. nia.
Qed.

(** * Checks *)
Lemma filter_flat_map {A B} (p : B -> bool) (f : A -> list B) l :
  flat_map (fun x => filter p (f x)) l = filter p (flat_map f l).
Proof. induction l; cbn; [easy|]. now rewrite IHl, filter_app. Qed.
Lemma map_flat_map {A B C} (g : B -> C) (f : A -> list B) l :
  map g (flat_map f l) = flat_map (fun x => map g (f x)) l.
Proof. induction l; cbn; [easy|]. now rewrite map_app, IHl. Qed.

Lemma judge_spec step hc total n : 0 < total -> (1 <= n)%Z ->
  reports (judge step hc total n) total (fun k i => In k (step i)).
Proof.
  intros T N. unfold judge. destruct (launched_some hc total n T N) as (tasks & L). rewrite L.
  assert (forall k, Permutation (thread_lists step (Z.of_nat total) n tasks k)
                      (filter (fun i => existsb (key_eqb k) (step i)) (seq 0 total))) as H.
  { intros k. unfold thread_lists. rewrite filter_flat_map, <- map_flat_map.
    pose proof (strided_visits hc total n tasks T N L) as V.
    clear - V. revert V. generalize (map Z.to_nat (flat_map (strided_indices n (Z.of_nat total)) tasks)).
    intros l V. induction V; cbn.
    - constructor.
    - destruct (existsb _ _); auto.
    - destruct (existsb (key_eqb k) (step x)), (existsb (key_eqb k) (step y)); auto. apply perm_swap.
    - etransitivity; eauto. }
  assert (forall k l, existsb (key_eqb k) l = true <-> In k l) as K.
  { intros k l. rewrite existsb_exists. split.
    - intros (x & A & B). replace k with x; [easy|]. now destruct k, x.
    - intros A. exists k. split; [easy|]. now destruct k. }
  assert (forall k i, In i (thread_lists step (Z.of_nat total) n tasks k) <-> i < total /\ In k (step i)) as M.
  { intros k i. split.
    - intros A. apply (Permutation_in _ (H k)), filter_In in A as [A B]. apply in_seq in A.
      apply K in B. split; [lia|easy].
    - intros [A B]. apply (Permutation_in _ (Permutation_sym (H k))), filter_In.
      split; [apply in_seq; lia|]. now apply K. }
  destruct (forallb _ all_keys) eqn:E.
  - left. split; [easy|]. intros k i Hi Hk. rewrite forallb_forall in E.
    assert (In k all_keys) as Hin by (destruct k; cbn; tauto). specialize (E k Hin).
    apply Nat.eqb_eq, length_zero_iff_nil in E. apply (in_nil (a := i)). rewrite <- E. apply M. auto.
  - right. eexists. split; [reflexivity|]. split.
    + assert (existsb (fun k => negb (length (thread_lists step (Z.of_nat total) n tasks k) =? 0)) all_keys = true) as X.
      { clear - E. induction all_keys as [|k l IH]; cbn in *; [easy|].
        destruct (length _ =? 0); cbn in *; auto. }
      apply existsb_exists in X as (k & _ & X). exists k.
      destruct (thread_lists step (Z.of_nat total) n tasks k) as [|i r] eqn:F; [easy|].
      exists i. apply M. rewrite F. now left.
    + intros k. split; [|apply M].
      eapply Permutation_NoDup; [apply Permutation_sym, H|]. apply NoDup_filter, seq_NoDup.
Qed.

Lemma reports_ext v total b b' : (forall k i, i < total -> (b k i <-> b' k i)) ->
  reports v total b -> reports v total b'.
Proof.
  intros E [[A B]|(rep & A & (k & i & Hi & Hb) & C)].
  - left. split; [easy|]. intros k i Hi Hb. apply (B k i Hi). now apply E.
  - right. exists rep. refine (conj A (conj _ _)).
    + exists k, i. split; [easy|]. now apply E.
    + intros k'. destruct (C k') as [N I]. split; [easy|]. intros j. rewrite I. split; intros [X Y]; split; auto; now apply E.
Qed.

Lemma nats_eqb_spec a : forall b, nats_eqb a b = true <-> a = b.
Proof.
  induction a as [|x a IH]; intros [|y b]; cbn; try easy.
  rewrite andb_true_iff, Nat.eqb_eq, IH. split; [intros [-> ->]; easy|intros [= -> ->]; easy].
Qed.
Lemma given_spec l : given l = true <-> l <> [].
Proof. unfold given. destruct l; cbn; split; congruence. Qed.

Lemma negb_nats a b : negb (nats_eqb a b) = true <-> a <> b.
Proof. rewrite negb_true_iff, <- not_true_iff_false, nats_eqb_spec. easy. Qed.
Lemma negb_string a b : negb (String.eqb a b) = true <-> a <> b.
Proof. rewrite negb_true_iff. apply String.eqb_neq. Qed.
Lemma negb_nat a b : negb (a =? b) = true <-> a <> b.
Proof. rewrite negb_true_iff. apply Nat.eqb_neq. Qed.
Lemma in_if {A} (b : bool) (x y : A) : In x (if b then [y] else []) <-> b = true /\ y = x.
Proof. destruct b; cbn; intuition congruence. Qed.
Lemma in_ifn {A} (b : bool) (x y : A) : In x (if b then [] else [y]) <-> b = false /\ y = x.
Proof. destruct b; cbn; intuition congruence. Qed.
Lemma in_if_list {A} (b : bool) (x : A) l : In x (if b then l else []) <-> b = true /\ In x l.
Proof. destruct b; cbn; intuition congruence. Qed.

Lemma consistent_sane r : consistent r -> sane r = true.
Proof.
  intros [C D]. unfold sane. destruct (checks r KParaDim) eqn:E; [|easy]. unfold ref_para_dim.
  apply forallb_forall. intros c Hc. apply orb_true_iff. rewrite !Nat.eqb_eq.
  destruct (Nat.eq_dec c 0) as [|Hn]; [now right|left].
  assert (wants r c) as W.
  { unfold wants. destruct Hc as [<-|[<-|[<-|[]]]].
    - now left.
    - right; left. split; [intros X; rewrite X in Hn; cbn in Hn; lia|easy].
    - right; right. split; [intros X; rewrite X in Hn; cbn in Hn; lia|easy]. }
  destruct (given (r_degrees r)) eqn:G.
  - apply given_spec in G. apply C; [exact W|]. right; left. split; [exact G|reflexivity].
  - assert (r_degrees r = []) as E0.
    { destruct (r_degrees r); [easy|]. now cbn in G. }
    destruct (Nat.eq_dec (r_para_dim r) 0) as [Z|Z].
    + exfalso. unfold wants in W. rewrite E0, Z in W.
      destruct W as [[X Y]|[[X Y]|[X Y]]]; try easy; [lia|].
      destruct (D X) as [F|F]; [lia|congruence].
    + apply C; [easy|]. now left.
Qed.

(** Under consistent arguments the reference is what is asked for. *)
Lemma ref_wants r n : consistent r -> wants r n -> ref_para_dim r = n.
Proof.
  intros [C D] W. unfold ref_para_dim. destruct (given (r_degrees r)) eqn:G.
  - apply given_spec in G. apply C; [|exact W]. right; left. split; [exact G|reflexivity].
  - assert (r_degrees r = []) as E0.
    { destruct (r_degrees r); [easy|]. now cbn in G. }
    destruct (Nat.eq_dec (r_para_dim r) 0) as [Z|Z].
    + exfalso. unfold wants in W. rewrite E0, Z in W.
      destruct W as [[X Y]|[[X Y]|[X Y]]]; try easy; [lia|].
      destruct (D X) as [F|F]; [lia|congruence].
    + apply C; [|easy]. now left.
Qed.
Lemma checks_wants r : checks r KParaDim = true <-> exists n, wants r n.
Proof.
  unfold checks, wants. rewrite !orb_true_iff, Nat.ltb_lt, !given_spec. split.
  - intros [[A|A]|A]; eauto. exists (r_para_dim r). left. lia.
  - intros (n & [[A B]|[[A _]|[A _]]]); auto. left; left. lia.
Qed.

Lemma step1_spec r p k : consistent r -> (In k (step1 r p) <-> differs r k p).
Proof.
  intros C. unfold step1, differs. destruct (p_null p); [split; [easy|now intros [? _]]|].
  set (m := negb (checks r KParaDim && negb (ref_para_dim r =? p_para_dim p))).
  assert (m = false <-> exists n, wants r n /\ p_para_dim p <> n) as M.
  { unfold m. rewrite negb_false_iff, andb_true_iff, negb_nat, checks_wants. split.
    - intros [(n & W) X]. exists n. split; [easy|]. rewrite (ref_wants r n C W) in X. auto.
    - intros (n & W & X). split; [eauto|]. rewrite (ref_wants r n C W). auto. }
  assert (m = true <-> forall n, wants r n -> p_para_dim p = n) as Mt.
  { rewrite <- not_false_iff_true, M. split.
    - intros X n W. destruct (Nat.eq_dec (p_para_dim p) n); [easy|]. exfalso. eauto.
    - intros X (n & W & Y). auto. }
  rewrite !in_app_iff, in_if, in_ifn, in_if, in_if_list, in_app_iff, !in_if.
  rewrite !andb_true_iff, !negb_nats, negb_nat, negb_string.
  unfold checks at 1 2 3 4. rewrite negb_string, Nat.ltb_lt, !given_spec. destruct k.
  - split.
    + intros [H|[H|[H|(_ & [H|H])]]]; destruct H as [? H]; try discriminate H.
      split; [easy|]. split; [tauto|]. intros E. now symmetry in E.
    + intros (_ & A & B). left. split; [|easy]. split; [easy|]. congruence.
  - split.
    + intros [H|[H|[H|(_ & [H|H])]]]; destruct H as [? H]; try discriminate H. split; [easy|]. now apply M.
    + intros (_ & A). right; left. split; [|easy]. now apply M.
  - split.
    + intros [H|[H|[H|(_ & [H|H])]]]; destruct H as [? H]; try discriminate H. split; [easy|]. lia.
    + intros (_ & A & B). right; right; left. split; [|easy]. lia.
  - split.
    + intros [H|[H|[H|(Hm & [H|H])]]]; destruct H as [H0 H]; try discriminate H.
      destruct H0 as [A B].
      split; [easy|]. refine (conj A (conj _ B)). apply Mt; auto. unfold wants. auto.
    + intros (_ & A & B & D). right; right; right. split; [|left; auto].
      apply Mt. intros n W. destruct C as [C _]. apply C; auto. unfold wants. auto.
  - split.
    + intros [H|[H|[H|(Hm & [H|H])]]]; destruct H as [H0 H]; try discriminate H.
      destruct H0 as [A B].
      split; [easy|]. refine (conj A (conj _ B)). apply Mt; auto. unfold wants. auto.
    + intros (_ & A & B & D). right; right; right. split; [|right; auto].
      apply Mt. intros n W. destruct C as [C _]. apply C; auto. unfold wants. auto.
Qed.

Lemma step2_spec f p q k : In k (step2 f p q) <-> misfits f k p q.
Proof.
  unfold step2, misfits. cbn zeta.
  set (m := negb (f_dims f && negb (p_para_dim p =? p_para_dim q))).
  assert (m = false <-> f_dims f = true /\ p_para_dim p <> p_para_dim q) as M.
  { unfold m. now rewrite negb_false_iff, andb_true_iff, negb_nat. }
  assert (m = true <-> (f_dims f = true -> p_para_dim p = p_para_dim q)) as Mt.
  { rewrite <- not_false_iff_true, M. destruct (Nat.eq_dec (p_para_dim p) (p_para_dim q)); tauto. }
  rewrite !in_app_iff, in_ifn, in_if, andb_true_iff, negb_nat.
  destruct (p_null q || p_null p) eqn:E.
  - assert (~ (p_null p = false /\ p_null q = false)) as X.
    { apply orb_true_iff in E. intros [A B]. destruct E; congruence. }
    destruct k; cbn [In].
    + split; [intros [[_ H]|[[_ H]|[]]]; discriminate|tauto].
    + split; [intros [[H _]|[[_ H]|[]]]; [now apply M|discriminate]|].
      intros H; left; split; [now apply M|easy].
    + split; [intros [[_ H]|[[[A B] _]|[]]]; [discriminate|auto]|].
      intros [A B]; right; left. auto.
    + split; [intros [[_ H]|[[_ H]|[]]]; discriminate|tauto].
    + split; [intros [[_ H]|[[_ H]|[]]]; discriminate|tauto].
  - apply orb_false_iff in E as [Eq Ep].
    rewrite in_app_iff, in_if, in_if_list, in_app_iff, !in_if, !andb_true_iff, orb_true_iff, !negb_nats, negb_string.
    destruct k; split.
    all: try (intros [H|[H|[H|(Hm & [H|H])]]]; destruct H as [H0 H]; try discriminate H; tauto).
    + intros (_ & A & B). right; right; left. auto.
    + intros [A B]. left. split; [now apply M|easy].
    + intros [H|[H|[H|(Hm & [H|H])]]]; destruct H as [H0 H]; try discriminate H.
      destruct H0 as [H0 H1]. split; [easy|]. auto.
    + intros [A B]. right; left. split; [|easy]. split; auto.
    + intros (_ & A & B & C). right; right; right. split; [split; [now apply Mt|auto]|left; auto].
    + intros (_ & A & B & C). right; right; right. split; [split; [now apply Mt|auto]|right; auto].
Qed.

Lemma raise_mismatch_spec hc r ps n : consistent r -> ps <> [] -> (1 <= n)%Z ->
  reports (raise_mismatch hc r ps n) (length ps) (fun k i => differs r k (nth i ps no_patch)).
Proof.
  intros C N1 N. unfold raise_mismatch. rewrite consistent_sane by easy.
  assert (0 < length ps) as L by (destruct ps; [easy|cbn; lia]).
  eapply reports_ext; [|now apply judge_spec]. intros k i _. now apply step1_spec.
Qed.
Lemma raise_mismatch2_spec hc f ps qs n : length ps = length qs -> ps <> [] -> (1 <= n)%Z ->
  reports (raise_mismatch2 hc f ps qs n) (length ps)
          (fun k i => misfits f k (nth i ps no_patch) (nth i qs no_patch)).
Proof.
  intros E N1 N. unfold raise_mismatch2. rewrite E, Nat.eqb_refl, <- E.
  assert (0 < length ps) as L by (destruct ps; [easy|cbn; lia]).
  eapply reports_ext; [|now apply judge_spec]. intros k i _. apply step2_spec.
Qed.

Lemma set_patches_spec hc ps n : ps <> [] -> (1 <= n)%Z -> chunks_fit (Z.of_nat (length ps)) n ->
  0 < p_para_dim (nth 0 ps no_patch) -> 0 < p_dim (nth 0 ps no_patch) ->
  reports (set_patches hc ps n) (length ps) (odd_dims ps).
Proof.
  intros N1 N F PD D. assert (0 < length ps) as L by (destruct ps; [easy|cbn; lia]).
  unfold set_patches. destruct (chunk_ids_run hc (length ps) n N (or_introl L) F) as (ids & E & _). rewrite E.
  destruct ps as [|p0 ps]; [easy|].
  set (r := Request "" (p_para_dim p0) (p_dim p0) [] []).
  assert (forall m, wants r m <-> m = p_para_dim p0 /\ m <> 0) as W.
  { intros m. unfold wants, r. cbn. intuition congruence. }
  eapply reports_ext; [|apply raise_mismatch_spec; auto].
  - intros k i _. cbv beta. unfold differs, odd_dims. cbn zeta. apply and_iff_compat_l.
    change (nth 0 (p0 :: ps) no_patch) with p0 in *.
    destruct k; subst r; cbn [r_name r_dim r_degrees r_cmr].
    + intuition congruence.
    + split.
      * intros (m & Hm & X). apply W in Hm. destruct Hm as [-> _]. exact X.
      * intros X. exists (p_para_dim p0). split; [apply W; lia|exact X].
    + intuition lia.
    + intuition congruence.
    + intuition congruence.
  - split.
    + intros a b Ha Hb. apply W in Ha. apply W in Hb. destruct Ha, Hb. congruence.
    + cbn. congruence.
Qed.

Lemma reports_bad v total b : reports v total b -> (v = Matches <-> forall k i, i < total -> ~ b k i).
Proof.
  intros [[A B]|(rep & A & (k & i & Hi & Hb) & C)]; split.
  - auto.
  - auto.
  - congruence.
  - intros H. exfalso. apply (H k i); auto.
Qed.
Lemma reports_no_crash v total b : reports v total b -> is_crash v = false.
Proof. intros [[-> _]|(rep & -> & _)]; easy. Qed.
Lemma is_matches_spec v : is_matches v = true <-> v = Matches.
Proof. destruct v; cbn; split; congruence. Qed.

Lemma one_thread_fits total : chunks_fit total 1.
Proof. left. lia. Qed.

Lemma uniform_made hc pd fd field : uniform pd fd field -> set_patches hc (field_patches pd fd field) 1 = Matches.
Proof.
  intros [N (a & b & A & B & H)]. set (qs := field_patches pd fd field) in *.
  assert (qs <> []) as Nq by (unfold qs, field_patches; destruct field; [easy|discriminate]).
  assert (forall i, i < length qs -> p_para_dim (nth i qs no_patch) = a /\ p_dim (nth i qs no_patch) = b) as X
    by (intros i Hi; apply H; now apply nth_In).
  assert (0 < length qs) as L by (destruct qs; [easy|cbn; lia]). destruct (X 0 L) as [X1 X2].
  apply (reports_bad _ (length qs) (odd_dims qs)).
  - apply set_patches_spec; auto; [lia|apply one_thread_fits| |]; lia.
  - intros k i Hi [_ O]. destruct (X i Hi) as [Y1 Y2]. destruct k; try easy; congruence.
Qed.

Lemma in_filter_perm {A} (p : A -> bool) l l' x : Permutation l l' ->
  (In x (filter p l) <-> In x l' /\ p x = true).
Proof.
  intros P. rewrite filter_In. split; intros [H1 H2]; split; auto.
  - eapply Permutation_in; eauto.
  - eapply Permutation_in; [apply Permutation_sym|]; eauto.
Qed.

Lemma mismatch2_field hc ps f field : ps <> [] ->
  (is_matches (raise_mismatch2 hc f ps
     (field_patches (p_para_dim (nth 0 ps no_patch)) (f_field_dim f) field) 1) = false
   <-> misfit_field ps f field).
Proof.
  intros N. set (qs := field_patches _ _ field).
  assert (length qs = length field) as L by apply map_length.
  destruct (Nat.eq_dec (length field) (length ps)) as [E|E].
  - pose proof (raise_mismatch2_spec hc f ps qs 1 ltac:(congruence) N ltac:(lia)) as R.
    apply reports_bad in R as B. rewrite <- not_true_iff_false, is_matches_spec, B.
    unfold misfit_field. fold qs. destruct R as [[_ Z]|(rep & _ & (k & j & Hj & M) & _)]; split.
    + intros X. exfalso. auto.
    + intros [X|(k & j & Hj & X)] _; [easy|]. apply (Z k j Hj X).
    + intros _. right. exists k, j. auto.
    + intros _ X. apply (X k j Hj M).
  - split; [intros _; now left|]. intros _. unfold raise_mismatch2. rewrite L.
    destruct (Nat.eqb_spec (length ps) (length field)); [congruence|easy].
Qed.

Lemma add_fields_spec hc ps f fields n : ps <> [] -> (1 <= n)%Z ->
  fields <> [] \/ n = 1%Z -> chunks_fit (Z.of_nat (length fields)) n ->
  Forall (uniform (p_para_dim (nth 0 ps no_patch)) (f_field_dim f)) fields ->
  (add_fields hc ps f fields n = Added /\
     forall i, i < length fields -> ~ misfit_field ps f (nth i fields [])) \/
  (exists ids, add_fields hc ps f fields n = Rejected ids /\ ids <> [] /\ NoDup ids /\
     forall i, In i ids <-> i < length fields /\ misfit_field ps f (nth i fields [])).
Proof.
  intros Np N T F U. unfold add_fields.
  assert (0 < length fields \/ n = 1%Z) as T' by (destruct T; [left; destruct fields; [easy|cbn; lia]|auto]).
  destruct (chunk_ids_run hc (length fields) n N T' F) as (ids & E & Pm). rewrite E.
  replace (hd no_patch ps) with (nth 0 ps no_patch) by now destruct ps.
  rewrite Forall_forall in U.
  assert (forall i, In i ids <-> i < length fields) as I.
  { intros i. split; intros H.
    - apply (Permutation_in _ Pm), in_seq in H. lia.
    - apply (Permutation_in _ (Permutation_sym Pm)), in_seq. lia. }
  set (qs := fun i => field_patches (p_para_dim (nth 0 ps no_patch)) (f_field_dim f) (nth i fields [])).
  assert (forall i, In i ids -> set_patches hc (qs i) 1 = Matches) as M.
  { intros i Hi. apply uniform_made. apply U, nth_In. now apply I. }
  assert (existsb (fun i => is_crash (set_patches hc (qs i) 1)) ids = false) as X1.
  { apply not_true_iff_false. intros X. apply existsb_exists in X as (i & A & B). now rewrite (M i A) in B. }
  assert (forallb (fun i => is_matches (set_patches hc (qs i) 1)) ids = true) as X2.
  { apply forallb_forall. intros i A. now rewrite (M i A). }
  unfold qs in X1, X2. cbv beta in X1, X2. rewrite X1, X2. cbn [negb].
  assert (forall i, In i (filter (fun i => negb (is_matches (raise_mismatch2 hc f ps (qs i) 1))) ids) <->
            i < length fields /\ misfit_field ps f (nth i fields [])) as Q.
  { intros i. rewrite filter_In, I, negb_true_iff. unfold qs. now rewrite mismatch2_field. }
  assert (NoDup (filter (fun i => negb (is_matches (raise_mismatch2 hc f ps (qs i) 1))) ids)) as ND.
  { apply NoDup_filter. eapply Permutation_NoDup; [apply Permutation_sym; eassumption|]. apply seq_NoDup. }
  unfold qs in Q, ND. cbv beta in Q, ND.
  destruct (filter _ ids) as [|b bad] eqn:EF.
  - left. split; [easy|]. intros i Hi X. apply (in_nil (a := i)). apply Q. auto.
  - right. exists (b :: bad). refine (conj eq_refl (conj _ (conj ND Q))). discriminate.
Qed.

(** * Rows written in any order *)
Lemma put_rows_length {R} ws : forall (buf : list R), length (put_rows buf ws) = length buf.
Proof.
  unfold put_rows. induction ws as [|w ws IH]; intros buf; cbn; [easy|].
  now rewrite IH, set_nth_length.
Qed.
Lemma put_rows_spec {R} (f : nat -> R) d ws : forall buf,
  (forall k x, In (k, x) ws -> k < length buf /\ x = f k) ->
  forall k, nth k (put_rows buf ws) d = if existsb (fun w => k =? fst w) ws then f k else nth k buf d.
Proof.
  unfold put_rows. induction ws as [|[k x] ws IH]; intros buf H j; cbn [fold_left existsb fst snd]; [easy|].
  destruct (H k x (or_introl eq_refl)) as [Hk ->]. rewrite IH.
  - rewrite set_nth_nth by easy. destruct (Nat.eqb_spec j k) as [->|]; cbn; [|easy].
    now destruct (existsb _ ws).
  - intros k' x' Hin. rewrite set_nth_length. apply H. now right.
Qed.
Lemma put_rows_all {R} (f : nat -> R) ws buf :
  (forall k x, In (k, x) ws -> k < length buf /\ x = f k) ->
  (forall k, k < length buf -> In k (map fst ws)) ->
  put_rows buf ws = map f (seq 0 (length buf)).
Proof.
  intros H C. destruct buf as [|d buf'] eqn:E.
  - pose proof (put_rows_length ws (@nil R)) as L. now destruct (put_rows [] ws).
  - rewrite <- E in *. apply (nth_ext _ _ d (f 0)).
    + now rewrite put_rows_length, map_length, seq_length.
    + intros k Hk. rewrite put_rows_length in Hk. rewrite (put_rows_spec f) by easy.
      rewrite map_nth, seq_nth by easy. cbn.
      assert (existsb (fun w => k =? fst w) ws = true) as ->; [|easy].
      specialize (C k Hk). apply in_map_iff in C as (w & <- & Hw). apply existsb_exists. exists w.
      now rewrite Nat.eqb_refl.
Qed.

(** * Control points *)
Lemma nth_offsets sizes : forall off i, i < length sizes ->
  nth i (offsets_from off sizes) 0 = off + prefix_sum sizes i.
Proof.
  unfold prefix_sum. induction sizes as [|s sizes IH]; intros off [|i] H; cbn in *; try lia.
  rewrite IH by lia. lia.
Qed.
Lemma offsets_length sizes : forall off, length (offsets_from off sizes) = length sizes.
Proof. induction sizes; cbn; auto. Qed.

Lemma n_control_points_concat {R} (coords : list (list R)) : n_control_points coords = length (concat coords).
Proof.
  unfold n_control_points. assert (forall l n, fold_left (fun n c => n + length c) l n = n + length (@concat R l)) as H.
  { induction l as [|c l IH]; intros n; cbn; [lia|]. rewrite IH, app_length. lia. }
  apply H.
Qed.
Lemma concat_slice {R} (coords : list (list R)) i : i < length coords ->
  firstn (length (nth i coords [])) (skipn (prefix_sum (map (@length R) coords) i) (concat coords)) = nth i coords [] /\
  prefix_sum (map (@length R) coords) i + length (nth i coords []) <= length (concat coords).
Proof.
  unfold prefix_sum. revert i; induction coords as [|c coords IH]; intros [|i] H; cbn in *; try lia.
  - rewrite app_length. split; [|lia]. now rewrite firstn_app, Nat.sub_diag, firstn_all, firstn_O, app_nil_r.
  - destruct (IH i ltac:(lia)) as [A B]. rewrite app_length. split; [|lia].
    rewrite skipn_app, skipn_all2 by lia. cbn [app].
    now replace (length c + fold_right Nat.add 0 (firstn i (map (@length R) coords)) - length c)
      with (fold_right Nat.add 0 (firstn i (map (@length R) coords))) by lia.
Qed.

Lemma nth_skipn' {R} (l : list R) i : forall k d, nth k (skipn i l) d = nth (i + k) l d.
Proof.
  revert i; induction l as [|x l IH]; intros [|i] k d; cbn; auto. now destruct k.
Qed.
Lemma nth_firstn' {R} (l : list R) m : forall k d, k < m -> nth k (firstn m l) d = nth k l d.
Proof.
  revert m; induction l as [|x l IH]; intros [|m] [|k] d H; cbn; auto; try lia. apply IH; lia.
Qed.

Lemma cover {R} (coords : list (list R)) : forall r, r < length (concat coords) ->
  exists i, i < length coords /\ prefix_sum (map (@length R) coords) i <= r /\
    r < prefix_sum (map (@length R) coords) i + length (nth i coords []).
Proof.
  unfold prefix_sum. induction coords as [|c coords IH]; intros r H; cbn in H; [lia|].
  rewrite app_length in H. destruct (Nat.lt_ge_cases r (length c)) as [X|X].
  - exists 0. cbn. lia.
  - destruct (IH (r - length c) ltac:(lia)) as (i & A & B & C). exists (S i). cbn in *. lia.
Qed.

Lemma in_combine_seq {R} (l : list R) s : forall k x, In (k, x) (combine (seq s (length l)) l) <->
  exists j, j < length l /\ k = s + j /\ nth_error l j = Some x.
Proof.
  revert s; induction l as [|y l IH]; intros s k x; cbn.
  - split; [easy|]. intros (j & Hj & _). lia.
  - rewrite IH. split.
    + intros [[= <- <-]|(j & Hj & -> & E)].
      * exists 0. cbn. rewrite Nat.add_0_r. repeat split; lia.
      * exists (S j). cbn. rewrite Nat.add_succ_r. repeat split; auto; lia.
    + intros ([|j] & Hj & -> & E).
      * left. cbn in E. injection E as ->. f_equal. lia.
      * right. exists j. refine (conj _ (conj _ E)); lia.
Qed.

Lemma control_points_any_order {R} (coords : list (list R)) ids ws buf :
  length buf = n_control_points coords -> Permutation ids (seq 0 (length coords)) ->
  Permutation ws (cp_writes coords ids) -> put_rows buf ws = concat coords.
Proof.
  intros L Pi Pw. rewrite n_control_points_concat in L.
  destruct (concat coords) as [|d rest] eqn:E0.
  { destruct buf; [|easy]. pose proof (put_rows_length ws (@nil R)) as X. now destruct (put_rows [] ws). }
  rewrite <- E0 in *. clear E0.
  assert (forall k x, In (k, x) ws <-> exists i j, i < length coords /\ j < length (nth i coords []) /\
            k = prefix_sum (map (@length R) coords) i + j /\ nth_error (nth i coords []) j = Some x) as W.
  { intros k x. split.
    - intros H. apply (Permutation_in _ Pw) in H. unfold cp_writes in H. apply in_flat_map in H as (i & Hi & H).
      apply (Permutation_in _ Pi), in_seq in Hi. apply in_combine_seq in H as (j & Hj & -> & E).
      exists i, j. unfold offsets. rewrite nth_offsets by (rewrite map_length; lia). repeat split; auto; lia.
    - intros (i & j & Hi & Hj & -> & E). apply (Permutation_in _ (Permutation_sym Pw)).
      unfold cp_writes. apply in_flat_map. exists i. split.
      + apply (Permutation_in _ (Permutation_sym Pi)), in_seq. lia.
      + apply in_combine_seq. exists j. unfold offsets. rewrite nth_offsets by (rewrite map_length; lia). auto. }
  assert (forall i j, i < length coords -> j < length (nth i coords []) ->
     nth (prefix_sum (map (@length R) coords) i + j) (concat coords) d = nth j (nth i coords []) d) as V.
  { intros i j Hi Hj. destruct (concat_slice coords i Hi) as [A B].
    rewrite <- A. rewrite nth_firstn', nth_skipn' by easy. reflexivity. }
  rewrite (put_rows_all (fun k => nth k (concat coords) d)).
  - rewrite L. apply (nth_ext _ _ d d); rewrite map_length, seq_length; [easy|]. intros k Hk.
    rewrite (nth_indep _ d (nth 0 (concat coords) d)) by (now rewrite map_length, seq_length).
    rewrite (map_nth (fun k => nth k (concat coords) d)), seq_nth by easy. reflexivity.
  - intros k x H. apply W in H as (i & j & Hi & Hj & -> & E). destruct (concat_slice coords i Hi) as [_ B].
    split; [lia|]. rewrite V by easy. symmetry. now apply nth_error_nth.
  - intros k Hk. rewrite L in Hk. destruct (cover coords k Hk) as (i & Hi & A & B).
    apply in_map_iff. exists (k, nth k (concat coords) d). split; [easy|]. apply W.
    exists i, (k - prefix_sum (map (@length R) coords) i). refine (conj Hi (conj _ (conj _ _))); [lia|lia|].
    replace k with (prefix_sum (map (@length R) coords) i + (k - prefix_sum (map (@length R) coords) i)) at 2 by lia.
    rewrite V by lia. apply nth_error_nth'. lia.
Qed.

(** * Queries *)
Lemma eval_any_order {R} (eval : nat -> nat -> R) np nq ids ws buf :
  length buf = np * nq -> Permutation ids (seq 0 (np * nq)) -> Permutation ws (eval_writes eval nq ids) ->
  put_rows buf ws = flat_map (fun p => map (eval p) (seq 0 nq)) (seq 0 np).
Proof.
  intros L Pi Pw. rewrite (put_rows_all (fun k => eval (k / nq) (k mod nq))).
  - rewrite L. clear. induction np as [|np IH]; [easy|].
    rewrite seq_S, flat_map_app. cbn [flat_map]. rewrite app_nil_r, <- IH.
    replace (S np * nq) with (np * nq + nq) by lia. rewrite seq_app, map_app. f_equal.
    cbn [Nat.add]. rewrite <- (seq_shift_add (np * nq) 0 nq) at 1 || idtac.
    replace (seq (np * nq) nq) with (map (fun k => np * nq + k) (seq 0 nq)) by (rewrite seq_shift_add; f_equal; lia).
    rewrite map_map. apply map_ext_in. intros k Hk. apply in_seq in Hk.
    f_equal; [rewrite Nat.div_add_l, Nat.div_small; lia|]. rewrite Nat.add_comm, Nat.mod_add by lia. apply Nat.mod_small. lia.
  - intros k x H. apply (Permutation_in _ Pw) in H. unfold eval_writes in H.
    apply in_map_iff in H as (i & [= <- <-] & Hi). apply (Permutation_in _ Pi), in_seq in Hi. split; [lia|easy].
  - intros k Hk. apply in_map_iff. exists (k, eval (k / nq) (k mod nq)). split; [easy|].
    apply (Permutation_in _ (Permutation_sym Pw)). unfold eval_writes. apply in_map_iff. exists k. split; [easy|].
    apply (Permutation_in _ (Permutation_sym Pi)), in_seq. lia.
Qed.
Lemma strided_ids_run hc total n : 0 < total -> (1 <= n)%Z ->
  exists ids, strided_ids hc total n = Some ids /\ Permutation ids (seq 0 total).
Proof.
  intros T N. unfold strided_ids. destruct (launched_some hc total n T N) as (tasks & L). rewrite L.
  eexists. split; [reflexivity|]. now apply (strided_visits hc).
Qed.

Lemma boundary_centers_nth pd bounds i side : i < pd -> side < 2 ->
  nth (2 * i + side) (boundary_centers pd bounds) [] =
  map (fun j => if i =? j then nth (j + side * pd) bounds 0%Qc
                else (qc 1 2 * (nth j bounds 0 + nth (j + pd) bounds 0))%Qc) (seq 0 pd).
Proof.
  intros Hi Hs. unfold boundary_centers.
  set (row := fun i side => map (fun j => if i =? j then nth (j + side * pd) bounds 0%Qc
                else (qc 1 2 * (nth j bounds 0 + nth (j + pd) bounds 0))%Qc) (seq 0 pd)).
  change (nth (2 * i + side) (flat_map (fun i => map (row i) [0; 1]) (seq 0 pd)) [] = row i side).
  assert (forall m a i, i < m -> nth (2 * i + side) (flat_map (fun i => map (row i) [0; 1]) (seq a m)) [] = row (a + i) side) as H.
  { induction m as [|m IH]; intros a k Hk; [lia|]. cbn [seq flat_map map app]. destruct k as [|k].
    - rewrite Nat.add_0_r. destruct side as [|[|side]]; [easy|easy|lia].
    - replace (2 * S k + side) with (S (S (2 * k + side))) by lia. cbn [nth]. rewrite IH by lia. f_equal. lia. }
  now rewrite H.
Qed.

(** * Sampling *)
Lemma map_repeat {A B} (f : A -> B) x n : map f (repeat x n) = repeat (f x) n.
Proof. induction n; cbn; congruence. Qed.
Lemma product_repeat r n : fold_right Nat.mul 1 (repeat r n) = r ^ n.
Proof. induction n; cbn; [easy|]. now rewrite IHn. Qed.
Lemma setup_repeat bounds res pd : (2 <= res)%Z -> exists g, grid_setup bounds (repeat res pd) = Some g.
Proof.
  intros H. destruct (grid_setup bounds (repeat res pd)) eqn:E; [eauto|].
  apply grid_setup_error in E. apply Exists_exists in E as (r & A & B). apply repeat_spec in A. lia.
Qed.
Lemma point_spec bounds res pd g q : grid_setup bounds (repeat res pd) = Some g ->
  id_to_grid_point g q = sample_point pd res bounds q.
Proof.
  intros E. pose proof (grid_setup_spec _ _ _ E) as (E1 & E2 & _).
  assert (length (id_to_grid_point g q) = pd) as L.
  { unfold id_to_grid_point. rewrite length_id_to_point by easy. now rewrite E1, map_length, repeat_length. }
  unfold sample_point. apply (nth_ext _ _ 0%Qc 0%Qc); [now rewrite L, map_length, seq_length|].
  intros k Hk. rewrite L in Hk.
  rewrite (nth_indep (map _ _) 0%Qc (sample_coordinate (fun k => nth k bounds 0%Qc)
    (fun k => nth (k + pd) bounds 0%Qc) (repeat (Z.to_nat res) pd) q 0)) by (now rewrite map_length, seq_length).
  rewrite map_nth, seq_nth by easy. cbn [Nat.add].
  rewrite (grid_point_coordinate _ _ _ q k E) by (now rewrite repeat_length).
  now rewrite repeat_length, map_repeat.
Qed.

Lemma sample_any_order {R} same bounds (eval : nat -> list Qc -> R) pd res hc np n :
  0 < pd -> (2 <= res)%Z -> 0 < np -> (1 <= n)%Z ->
  (same = true -> forall p, p < np -> bounds p = bounds 0) ->
  (same = false -> chunks_fit (Z.of_nat np) n) ->
  exists ws, sample_writes same bounds eval pd res hc np n = Some ws /\
    forall ws' buf, Permutation ws' ws -> length buf = np * Z.to_nat res ^ pd ->
      put_rows buf ws' =
      flat_map (fun p => map (fun q => eval p (sample_point pd res (bounds p) q)) (seq 0 (Z.to_nat res ^ pd))) (seq 0 np).
Proof.
  intros Hpd Hres Hnp Hn Hs Hc. unfold sample_writes.
  assert (0 < Z.to_nat res ^ pd) as Hq by (pose proof (Nat.pow_nonzero (Z.to_nat res) pd); lia).
  destruct (strided_ids_run hc (np * Z.to_nat res ^ pd) n ltac:(nia) Hn) as (ids & E & Pm). rewrite E.
  assert (exists point, grids same bounds (repeat res pd) hc np n = Some point /\
            forall p q, p < np -> q < Z.to_nat res ^ pd -> point p q = sample_point pd res (bounds p) q) as (point & G & Hp).
  { unfold grids. destruct same.
    - destruct np as [|np]; [lia|]. destruct (setup_repeat (bounds 0) res pd Hres) as (g & Eg). rewrite Eg.
      eexists. split; [reflexivity|]. intros p q Hp Hq'. rewrite (Hs eq_refl p Hp), <- (point_spec _ _ _ g) by easy.
      rewrite repeat_length. pose proof (grid_setup_spec _ _ _ Eg) as (E1 & E2 & _).
      assert (length (id_to_grid_point g q) = pd) as L.
      { unfold id_to_grid_point. rewrite length_id_to_point by easy. now rewrite E1, map_length, repeat_length. }
      apply (nth_ext _ _ 0%Qc 0%Qc); [now rewrite L, map_length, seq_length|].
      intros k Hk. rewrite map_length, seq_length in Hk.
      rewrite (nth_indep _ 0%Qc (grid_fill g (fun _ => 0%Qc) (q * pd + 0))) by (now rewrite map_length, seq_length).
      rewrite (map_nth (fun k => grid_fill g (fun _ => 0%Qc) (q * pd + k))), seq_nth by easy. cbn [Nat.add].
      rewrite (grid_fill_spec _ _ _ _ _ Eg) by (destruct pd; [lia|discriminate]).
      rewrite repeat_length, (grid_size_product _ _ _ Eg), map_repeat, product_repeat.
      destruct (Nat.ltb_spec (q * pd + k) (Z.to_nat res ^ pd * pd)) as [X|X]; [|nia].
      rewrite Nat.div_add_l, (Nat.div_small k), Nat.add_0_r by lia.
      rewrite (Nat.add_comm (q * pd)), Nat.mod_add, Nat.mod_small by lia. reflexivity.
    - destruct (chunk_ids_run hc np n Hn (or_introl Hnp) (Hc eq_refl)) as (cs & Ec & _). rewrite Ec.
      assert (forallb (fun i => match grid_setup (bounds i) (repeat res pd) with Some _ => true | None => false end) cs = true) as ->.
      { apply forallb_forall. intros i _. destruct (setup_repeat (bounds i) res pd Hres) as (g & ->). easy. }
      eexists. split; [reflexivity|]. intros p q _ _. destruct (setup_repeat (bounds p) res pd Hres) as (g & Eg).
      rewrite Eg. now apply point_spec. }
  rewrite G. eexists. split; [reflexivity|]. intros ws' buf Pw L.
  rewrite (eval_any_order (fun p q => eval p (point p q)) np (Z.to_nat res ^ pd) ids ws' buf L Pm Pw).
  rewrite !flat_map_concat_map. f_equal. apply map_ext_in. intros p Hip. apply in_seq in Hip.
  apply map_ext_in. intros q Hiq. apply in_seq in Hiq. now rewrite Hp by lia.
Qed.
