(** Proofs about tilings. *)
From Coq Require Import List Arith ZArith QArith Qcanon Lia Sorting Permutation.
From Verif Require Import Base BaseRadix BaseQc BaseSort S_Grid S_Spline S_Value S_Knots S_Pieces S_Micro M_Bezier M_Knots
  M_Elevate M_Micro P_Grid P_Spline P_Bezier P_Knots P_Insert P_Pieces.
Import ListNotations.
Local Open Scope list_scope.
Local Open Scope nat_scope.

Lemma div_pos x y : (0 < x)%Qc -> (0 < y)%Qc -> (0 < x / y)%Qc.
Proof.
  intros Hx Hy. assert (E : (x / y * y = x)%Qc) by (field; qlra).
  destruct (Qclt_le_dec 0 (x / y)) as [|G]; auto. exfalso. assert (x / y * y <= 0)%Qc by qnra. qlra.
Qed.
Lemma div_nonneg x y : (0 <= x)%Qc -> (0 < y)%Qc -> (0 <= x / y)%Qc.
Proof.
  intros Hx Hy. assert (E : (x / y * y = x)%Qc) by (field; qlra).
  destruct (Qclt_le_dec (x / y) 0) as [G|]; auto. exfalso. assert (x / y * y < 0)%Qc by qnra. qlra.
Qed.

(** * Old and new knots of one axis *)
Fixpoint merged (us : list Qc) (ns : list nat) : list Qc :=
  match us, ns with
  | a :: (b :: _) as r, n :: ns => (a :: equidistant a b n) ++ merged r ns
  | _, _ => us
  end.
Fixpoint spaced (eps : Qc) (us : list Qc) (ns : list nat) : Prop :=
  match us, ns with
  | a :: (b :: _) as r, n :: ns => (a + eps * inj (n + 1) <= b)%Qc /\ spaced eps r ns
  | [_], [] => True
  | _, _ => False
  end.
Lemma merged_cons a b r n ns : merged (a :: b :: r) (n :: ns) = (a :: equidistant a b n) ++ merged (b :: r) ns.
Proof. reflexivity. Qed.
Lemma divided_cons a b r n ns : divided (a :: b :: r) (n :: ns) = equidistant a b n ++ divided (b :: r) ns.
Proof. reflexivity. Qed.
Lemma spaced_cons eps a b r n ns : spaced eps (a :: b :: r) (n :: ns) <->
  (a + eps * inj (n + 1) <= b)%Qc /\ spaced eps (b :: r) ns.
Proof. reflexivity. Qed.
Lemma spaced_inv eps us ns : spaced eps us ns ->
  (exists a, us = [a] /\ ns = []) \/
  exists a b r n ms, us = a :: b :: r /\ ns = n :: ms /\ (a + eps * inj (n + 1) <= b)%Qc /\ spaced eps (b :: r) ms.
Proof.
  destruct us as [|a [|b r]], ns as [|n ms]; try easy.
  - left. now exists a.
  - intros H. right. apply spaced_cons in H. destruct H. exists a, b, r, n, ms. auto.
Qed.
Ltac on_spaced eps :=
  intros us; induction us as [|a us IH]; intros ns H; [easy|];
  destruct (spaced_inv eps _ _ H) as [(z0 & [= -> ->] & ->)|(z0 & b & r & n & ms & [= <- ->] & -> & Hab & H')];
  [|specialize (IH ms H')].

Section Spaced.
Variable eps : Qc.
Hypothesis He : (0 < eps)%Qc.

Definition point (a b : Qc) (n j : nat) : Qc := (a + (b - a) * inj j / inj (n + 1))%Qc.
Lemma point_gap a b n i j : (a + eps * inj (n + 1) <= b)%Qc -> i < j ->
  (point a b n i + eps <= point a b n j)%Qc.
Proof.
  intros H Hij. pose proof (f_gap n eps a b i j He H Hij) as G. cbv zeta in G. unfold point.
  pose proof (inj_S_pos n). 
  replace (a + (b - a) * inj i / inj (n + 1))%Qc with ((b - a) / inj (n + 1) * inj i + a)%Qc by (field; qlra).
  replace (a + (b - a) * inj j / inj (n + 1))%Qc with ((b - a) / inj (n + 1) * inj j + a)%Qc by (field; qlra).
  exact G.
Qed.
Lemma point_0 a b n : point a b n 0 = a.
Proof. unfold point. change (inj 0) with 0%Qc. field. pose proof (inj_S_pos n). qlra. Qed.
Lemma point_last a b n : point a b n (n + 1) = b.
Proof. unfold point. field. pose proof (inj_S_pos n). qlra. Qed.
Lemma point_list a b n : equidistant a b n = map (point a b n) (seq 1 n).
Proof. reflexivity. Qed.
Lemma inner_between a b n x : (a + eps * inj (n + 1) <= b)%Qc -> In x (equidistant a b n) ->
  (a + eps <= x)%Qc /\ (x + eps <= b)%Qc.
Proof.
  intros H Hx. rewrite point_list in Hx. apply in_map_iff in Hx. destruct Hx as (j & <- & Hj). apply in_seq in Hj.
  pose proof (point_gap a b n 0 j H ltac:(lia)) as G1. pose proof (point_gap a b n j (n + 1) H ltac:(lia)) as G2.
  rewrite point_0 in G1. rewrite point_last in G2. auto.
Qed.
Lemma step_wide a b n : (a + eps * inj (n + 1) <= b)%Qc -> (a + eps <= b)%Qc.
Proof.
  intros H. pose proof (point_gap a b n 0 (n + 1) H ltac:(lia)) as G. now rewrite point_0, point_last in G.
Qed.

Lemma merged_in : forall us ns, spaced eps us ns -> forall x, In x (merged us ns) <-> In x us \/ In x (divided us ns).
Proof.
  on_spaced eps.
  - intros x. cbn. tauto.
  - intros x. rewrite merged_cons, divided_cons. specialize (IH x). rewrite !in_app_iff, IH. cbn [In]. tauto.
Qed.
Lemma merged_length : forall us ns, spaced eps us ns -> length (merged us ns) = length us + list_sum ns.
Proof.
  on_spaced eps; [reflexivity|]. rewrite merged_cons, app_length. cbn [length]. rewrite IH.
  unfold equidistant. rewrite map_length, seq_length. rewrite list_sum_cons. cbn [length]. lia.
Qed.
Lemma divided_length : forall us ns, spaced eps us ns -> length (divided us ns) = list_sum ns.
Proof.
  on_spaced eps; [reflexivity|]. rewrite divided_cons, app_length. rewrite IH.
  unfold equidistant. rewrite map_length, seq_length. now rewrite list_sum_cons.
Qed.
Lemma merged_ge : forall us ns, spaced eps us ns -> forall a r x, us = a :: r -> In x (merged us ns) -> (a <= x)%Qc.
Proof.
  on_spaced eps.
  - intros c r x [= -> <-] [<-|[]]. apply Qcle_refl.
  - intros c r0 x [= <- <-]. rewrite merged_cons, in_app_iff. pose proof (step_wide _ _ _ Hab) as Hw.
    intros [[<-|Hx]|Hx]; [apply Qcle_refl| |].
    + pose proof (inner_between _ _ _ _ Hab Hx). qlra.
    + specialize (IH _ _ _ eq_refl Hx). qlra.
Qed.
Lemma merged_gap : forall us ns, spaced eps us ns -> StronglySorted (fun x y => x + eps <= y)%Qc (merged us ns).
Proof.
  on_spaced eps; [repeat constructor|]. rewrite merged_cons. apply ssorted_app; auto.
  - replace (a :: equidistant a b n) with (map (point a b n) (seq 0 (n + 1))).
    + eapply ssorted_map; [|apply ssorted_seq]. intros i j Hij. now apply point_gap.
    + replace (n + 1) with (S n) by lia. cbn [seq map]. now rewrite point_0.
  - intros x y Hx Hy. pose proof (merged_ge _ _ H' _ _ _ eq_refl Hy). destruct Hx as [<-|Hx].
    + pose proof (step_wide _ _ _ Hab). qlra.
    + pose proof (inner_between _ _ _ _ Hab Hx). qlra.
Qed.
Lemma us_gap : forall us ns, spaced eps us ns -> StronglySorted (fun x y => x + eps <= y)%Qc us.
Proof.
  on_spaced eps; [repeat constructor|]. constructor; auto. rewrite Forall_forall. intros x Hx.
  pose proof (merged_ge _ _ H' b r x eq_refl). rewrite merged_in in H0 by auto. specialize (H0 (or_introl Hx)).
  pose proof (step_wide _ _ _ Hab). qlra.
Qed.
Lemma divided_bounds : forall us ns, spaced eps us ns -> forall x, In x (divided us ns) ->
  ~ In x us /\ exists a b, In a us /\ In b us /\ (a < x)%Qc /\ (x < b)%Qc.
Proof.
  on_spaced eps; [easy|]. intros x. rewrite divided_cons, in_app_iff. intros [Hx|Hx].
  - pose proof (inner_between _ _ _ _ Hab Hx) as [G1 G2]. split.
    + intros [<-|G]; [qlra|]. pose proof (merged_ge _ _ H' b r x eq_refl) as G3. rewrite merged_in in G3 by auto.
      specialize (G3 (or_introl G)). qlra.
    + exists a, b. split; [now left|]. split; [right; now left|]. split; qlra.
  - pose proof (merged_ge _ _ H' b r x eq_refl) as G3. rewrite merged_in in G3 by auto. specialize (G3 (or_intror Hx)).
    pose proof (step_wide _ _ _ Hab). destruct (IH x Hx) as (N & c & d & Hc & Hd & Hcx & Hxd). split.
    + intros [<-|G]; [qlra|auto].
    + exists c, d. split; [now right|]. split; [now right|]. auto.
Qed.
Lemma divided_gap : forall us ns, spaced eps us ns -> StronglySorted (fun x y => x + eps <= y)%Qc (divided us ns).
Proof.
  on_spaced eps; [constructor|]. rewrite divided_cons. apply ssorted_app; auto.
  - rewrite point_list. eapply ssorted_map; [|apply ssorted_seq]. intros i j Hij. now apply point_gap.
  - intros x y Hx Hy. pose proof (merged_ge _ _ H' b r y eq_refl) as G3. rewrite merged_in in G3 by auto.
    specialize (G3 (or_intror Hy)). pose proof (inner_between _ _ _ _ Hab Hx). qlra.
Qed.
Lemma spaced_of_gap t : forall us ns, us <> [] -> StronglySorted (fun x y => x + eps * inj t <= y)%Qc us ->
  length ns = length us - 1 -> Forall (fun n => n + 1 <= t) ns -> spaced eps us ns.
Proof.
  induction us as [|a us IH]; intros ns Hne S L F; [easy|].
  destruct us as [|b r], ns as [|n ms]; cbn in L; try discriminate; [exact I|].
  apply spaced_cons. inversion S as [|? ? S' HF]; subst. inversion F as [|? ? Hn F']; subst. split.
  - inversion HF as [|? ? Hb _]; subst. pose proof (inj_le _ _ Hn). 
    assert (eps * inj (n + 1) <= eps * inj t)%Qc by qnra. qlra.
  - apply IH; auto; [easy|]. cbn. lia.
Qed.
End Spaced.

(** * Knot vectors *)
Lemma valid_values p m kv : knot_vector p m kv -> forall x,
  (exists i, p <= i <= m /\ x = kn kv i) <-> In x kv /\ (kn kv p <= x)%Qc /\ (x <= kn kv m)%Qc.
Proof.
  intros K x. pose proof (kv_degree _ _ _ K) as Hpm. pose proof K as (L & ND & _). pose proof (kn_mono kv ND) as M.
  split.
  - intros (i & Hi & ->). split; [|split; apply M; lia]. rewrite (kn_nth kv i 0%Qc) by lia. apply nth_In. lia.
  - intros (Hx & H1 & H2). destruct (In_nth _ _ 0%Qc Hx) as (i & Hi & E). rewrite <- (kn_nth kv i 0%Qc) in E by auto.
    subst x. destruct (le_lt_dec p i) as [Hp|Hp]; [destruct (le_lt_dec i m) as [Hm|Hm]|].
    + exists i. split; [lia|auto].
    + exists m. split; [lia|]. apply Qcle_antisym; auto. apply M; lia.
    + exists p. split; [lia|]. apply Qcle_antisym; auto. apply M; lia.
Qed.

Section Feed.
Variables (ins : list Qc -> Qc -> nat -> list Qc) (p : nat).
Hypothesis HI : inserts_new ins.
Lemma feed_kv ks us m kv :
  NoDup ks -> incl us ks -> StronglySorted Qclt us -> knot_vector p m kv ->
  (forall x, In x us -> (kn kv p < x)%Qc /\ (x < kn kv m)%Qc /\ ~ In x kv) ->
  let kv' := feed (guarded_insert ins p) ks us kv in
  knot_vector p (m + length us) kv' /\ kn kv' p = kn kv p /\ kn kv' (m + length us) = kn kv m.
Proof.
  intros NDk I S; revert m kv; induction S as [|x l S IH HF]; intros m kv K H; cbn [feed length].
  - rewrite Nat.add_0_r. auto.
  - rewrite (requests_nodup x ks) by (auto; apply I; now left).
    destruct (H x (or_introl eq_refl)) as (Hl & Hu & Hx).
    rewrite (guarded_new ins p HI m kv x) by auto. cbn [fst snd].
    destruct (qinsert_kv p m kv x K Hl Hu) as (K' & E1 & E2).
    rewrite Forall_forall in HF.
    destruct (IH ltac:(intros z Hz; apply I; now right) (Datatypes.S m) (qinsert x kv) K') as (A1 & A2 & A3).
    { intros y Hy. rewrite E1, E2. destruct (H y (or_intror Hy)) as (Hl' & Hu' & Hy'). repeat split; auto.
      intros G. eapply Permutation_in in G; [|apply qinsert_perm]. destruct G as [->|G]; auto.
      specialize (HF y Hy). clear -HF. qlra. }
    replace (m + Datatypes.S (length l)) with (Datatypes.S m + length l) by lia.
    rewrite A2, A3, E1, E2. auto.
Qed.

Lemma insert_divided epsk epsd m kv us ns :
  (0 < epsk)%Qc -> (0 < epsd)%Qc -> knot_vector p m kv -> distinct_knots (KnotAxis p kv) us ->
  spaced epsk us ns -> spaced epsd us ns ->
  exists kv' flags, insert_knots (guarded_insert ins p) epsd kv kv (divided us ns) = Inserted kv' flags /\
    knot_vector p (m + length (divided us ns)) kv' /\ Permutation kv' (kv ++ divided us ns) /\
    unique_knots epsk p kv' = merged us ns /\ distinct_knots (KnotAxis p kv') (merged us ns).
Proof.
  intros Hk Hd K [US UE] Sk Sd. pose proof (kv_degree _ _ _ K) as Hpm. pose proof K as (L & ND & _).
  assert (UE' : forall x, In x us <-> In x kv /\ (kn kv p <= x)%Qc /\ (x <= kn kv m)%Qc).
  { intros x. rewrite UE. replace (length kv - p - 1) with m by lia. now apply valid_values. }
  clear UE. set (new := divided us ns).
  assert (NG : StronglySorted (fun x y => x + epsd <= y)%Qc new) by now apply divided_gap.
  assert (NS : StronglySorted Qclt new) by now apply (gap_strict epsd).
  assert (NDn : NoDup new).
  { clear -NS. induction NS as [|x l S IH HF]; constructor; auto. intros G. rewrite Forall_forall in HF.
    specialize (HF x G). qlra. }
  assert (Nin : forall x, In x new -> (kn kv p < x)%Qc /\ (x < kn kv m)%Qc /\ ~ In x kv).
  { intros x Hx. destruct (divided_bounds epsd Hd us ns Sd x Hx) as (N & a & b & Ha & Hb & Hax & Hxb).
    apply UE' in Ha, Hb. destruct Ha as (_ & H1 & _), Hb as (_ & _ & H2).
    assert (kn kv p < x)%Qc by qlra. assert (x < kn kv m)%Qc by qlra. split; auto. split; auto.
    intros G. apply N. apply UE'. split; auto. split; qlra. }
  assert (G : exists kv' flags, insert_knots (guarded_insert ins p) epsd kv kv new = Inserted kv' flags /\
     knot_vector p (m + length new) kv' /\ kn kv' p = kn kv p /\ kn kv' (m + length new) = kn kv m /\
     Permutation kv' (kv ++ new)).
  { destruct new as [|x0 new0] eqn:En.
    { exists kv, []. cbn [length]. rewrite Nat.add_0_r, app_nil_r. auto 10. }
    rewrite <- En in *. assert (Hne : new <> []) by (rewrite En; easy).
    rewrite (insert_in_range _ _ _ _ _ (kn kv p) (kn kv m)); auto.
    2,3: rewrite (kn_nth kv _ 0%Qc) by lia; apply nth_In; lia.
    2:{ intros x Hx. destruct (Nin x Hx) as (H1 & H2 & _). split; qlra. }
    destruct (insert_core_spec (guarded_insert ins p) epsd kv new new Hd) as (f & R & _ & _); auto.
    { now apply gap_apart. }
    { reflexivity. }
    rewrite R. destruct (feed_new ins p HI new new m kv NDn (incl_refl _) NS K Nin) as (_ & P1 & _).
    destruct (feed_kv new new m kv NDn (incl_refl _) NS K Nin) as (K' & E1 & E2).
    eexists _, f. split; [reflexivity|]. auto. }
  destruct G as (kv' & f & R & K' & E1 & E2 & P). exists kv', f. split; auto. split; auto. split; auto.
  pose proof (kv_degree _ _ _ K') as Hpm'.
  assert (VE : forall x, In x (merged us ns) <-> exists i, p <= i <= m + length new /\ x = kn kv' i).
  { intros x. rewrite (valid_values p _ kv' K' x), E1, E2, (merged_in epsd us ns Sd x), UE'. fold new. split.
    - intros [(H1 & H2)|H1].
      + split; auto. eapply Permutation_in; [symmetry; exact P|]. apply in_or_app. now left.
      + destruct (Nin x H1) as (H2 & H3 & _). split; [|split; qlra].
        eapply Permutation_in; [symmetry; exact P|]. apply in_or_app. now right.
    - intros (H1 & H2). eapply Permutation_in in H1; [|exact P]. apply in_app_iff in H1. destruct H1; auto. }
  pose proof (merged_gap epsk Hk us ns Sk) as MG.
  destruct (unique_knots_valid epsk p (m + length new) kv' Hk K') as (US' & UE2 & _).
  { intros x y Hx Hy. apply (valid_in p _ _ x K' Hpm') in Hx. apply (valid_in p _ _ y K' Hpm') in Hy.
    apply VE in Hx. apply VE in Hy. now apply (gap_apart epsk _ Hk MG). }
  assert (MS : StronglySorted Qclt (merged us ns)) by now apply (gap_strict epsk).
  split.
  - apply strict_ext; auto. intros x. now rewrite UE2, VE.
  - split; auto. intros x. rewrite VE. destruct K' as (L' & _).
    now replace (length kv' - p - 1) with (m + length new) by lia.
Qed.
End Feed.

(** * Distinct knots and spans *)
Lemma distinct_count kv p k : non_decreasing kv -> p + k < length kv ->
  exists us, StronglySorted Qclt us /\ (forall x, In x us <-> exists i, p <= i <= p + k /\ x = kn kv i) /\
    length us = S (length (filter (fun i => qltb (kn kv i) (kn kv (i + 1))) (seq p k))).
Proof.
  intros ND. pose proof (kn_mono kv ND) as M. induction k as [|k IH]; intros Hk.
  - exists [kn kv p]. split; [repeat constructor|]. split; [|reflexivity].
    intros x; split.
    + intros [<-|[]]. exists p. split; [lia|auto].
    + intros (i & Hi & ->). left. f_equal. lia.
  - destruct IH as (us & S & E & L); [lia|]. rewrite seq_S, filter_app, app_length. cbn [filter].
    destruct (qltb_spec (kn kv (p + k)) (kn kv (p + k + 1))) as [H|H].
    + exists (us ++ [kn kv (p + k + 1)]). split; [|split].
      * apply ssorted_app; auto; [repeat constructor|]. intros x y Hx [<-|[]]. apply E in Hx.
        destruct Hx as (i & Hi & ->). pose proof (M i (p + k) ltac:(lia)). qlra.
      * intros x. rewrite in_app_iff, E. split.
        -- intros [(i & Hi & ->)|[<-|[]]]; [exists i|exists (p + k + 1)]; split; auto; lia.
        -- intros (i & Hi & ->). destruct (Nat.eq_dec i (p + Datatypes.S k)) as [->|Hn].
           ++ right. left. f_equal. lia.
           ++ left. exists i. split; [lia|auto].
      * rewrite app_length, L. cbn. lia.
    + exists us. split; auto. split.
      * intros x. rewrite E. split.
        -- intros (i & Hi & ->). exists i. split; [lia|auto].
        -- intros (i & Hi & ->). destruct (Nat.eq_dec i (p + Datatypes.S k)) as [->|Hn].
           ++ exists (p + k). split; [lia|]. apply Qcle_antisym; [|apply M; lia].
              replace (p + Datatypes.S k) with (p + k + 1) by lia. qlra.
           ++ exists i. split; [lia|auto].
      * rewrite L. cbn. lia.
Qed.

Definition axis_ok (a : paxis) : Prop :=
  match a with BezierAxis _ => True | KnotAxis p kv => knot_vector p (length kv - p - 1) kv end.
Lemma distinct_spans a us : axis_ok a -> distinct_knots a us -> length us = S (n_spans a).
Proof.
  destruct a as [p|p kv]; intros K [S E].
  - now subst.
  - cbn in K. pose proof (kv_degree _ _ _ K) as Hpm. pose proof K as (L & ND & _).
    destruct (distinct_count kv p (length kv - p - 1 - p) ND ltac:(lia)) as (us' & S' & E' & L').
    assert (us = us').
    { apply strict_ext; auto. intros x. rewrite E, E'. split; intros (i & Hi & ->); exists i; split; auto; lia. }
    subst us'. cbn [n_spans]. exact L'.
Qed.

Lemma divisible_ok eps a t : divisible eps a t -> axis_ok a.
Proof. destruct a; cbn; auto. tauto. Qed.
Lemma divisible_gap eps a t us : (0 < eps)%Qc -> 0 < t -> divisible eps a t -> distinct_knots a us ->
  StronglySorted (fun x y => x + eps * inj t <= y)%Qc us.
Proof.
  intros He Ht. pose proof (inj_pos t Ht) as Hi. assert (Hd : (0 < eps * inj t)%Qc) by qnra.
  destruct a as [p|p kv]; cbn [divisible]; intros D [S E].
  - subst. repeat constructor. qlra.
  - destruct D as [K D]. pose proof (kv_degree _ _ _ K) as Hpm. pose proof K as (L & ND & _).
    pose proof (kn_mono kv ND) as M.
    pose proof (spans_gap p _ kv (eps * inj t) K Hd D) as G.
    apply ssorted_gap; auto. intros x y Hx Hy Hxy. apply E in Hx. apply E in Hy.
    destruct Hx as (i & Hi' & ->), Hy as (j & Hj & ->). destruct (le_lt_dec i j) as [H|H].
    + destruct (G i j ltac:(lia) ltac:(lia)) as [Q|Q]; auto. exfalso. qlra.
    + pose proof (M j i ltac:(lia)). exfalso. qlra.
Qed.
Lemma axis_unique_distinct eps a : (0 < eps)%Qc -> divisible eps a 1 -> distinct_knots a (axis_unique eps a).
Proof.
  intros He. destruct a as [p|p kv]; cbn [divisible axis_unique].
  - intros _. split; [|reflexivity]. repeat constructor.
  - intros [K D]. pose proof (kv_degree _ _ _ K) as Hpm. pose proof K as (L & ND & _). change (inj 1) with 1%Qc in D.
    pose proof (kn_mono kv ND) as M. set (m := length kv - p - 1) in *.
    pose proof (spans_gap p m kv eps K He ltac:(intros i Hi Hl; specialize (D i Hi Hl); rewrite Qcmult_1_r in D; exact D)) as Gk.
    destruct (unique_knots_valid eps p m kv He K) as (US & UE & _ & _).
    { intros x y Hx Hy. apply (valid_in p m) in Hx; auto. apply (valid_in p m) in Hy; auto.
      destruct Hx as (i & Hi & ->), Hy as (j & Hj & ->).
      destruct (le_lt_dec i j) as [H|H].
      - destruct (Gk i j ltac:(lia) ltac:(lia)) as [E|E]; auto. right. rewrite qabs_le by (apply M; lia). qlra.
      - destruct (Gk j i ltac:(lia) ltac:(lia)) as [E|E]; auto. right. unfold qabs.
        destruct (Qclt_le_dec (kn kv i - kn kv j) 0); qlra. }
    split; auto.
Qed.
Lemma divisible_le eps a t t' : (0 < eps)%Qc -> t' <= t -> divisible eps a t -> divisible eps a t'.
Proof.
  intros He Ht. pose proof (inj_le _ _ Ht). assert (eps * inj t' <= eps * inj t)%Qc by qnra.
  destruct a as [p|p kv]; cbn [divisible].
  - intros; qlra.
  - intros [K D]. split; auto. intros i Hi Hl. specialize (D i Hi Hl). qlra.
Qed.

Section Axis.
Variables (ins : nat -> list Qc -> Qc -> nat -> list Qc) (epsk epsd : Qc).
Hypothesis HI : forall p, inserts_new (ins p).
Hypothesis Hk : (0 < epsk)%Qc.
Hypothesis Hd : (0 < epsd)%Qc.

(** One axis: n knots in each span. *)
Lemma axis_divided a t us ns :
  0 < t -> divisible epsk a t -> divisible epsd a t -> distinct_knots a us ->
  length ns = n_spans a -> Forall (fun n => n + 1 <= t) ns ->
  exists a', insert_axis ins epsd (with_knots a) (divided us ns) = Some a' /\
    with_new_knots a a' (divided us ns) /\ length (axis_unique epsk a') - 1 = n_spans a + list_sum ns /\
    n_spans a' = n_spans a + list_sum ns.
Proof.
  intros Ht Dk Dd DK L F.
  pose proof (distinct_spans a us (divisible_ok _ _ _ Dk) DK) as Lu.
  assert (Hne : us <> []) by (intros ->; discriminate).
  assert (Sk : spaced epsk us ns) by (eapply spaced_of_gap; eauto using divisible_gap; lia).
  assert (Sd : spaced epsd us ns) by (eapply spaced_of_gap; eauto using divisible_gap; lia).
  assert (K : exists p kv, with_knots a = KnotAxis p kv /\ p = ax_degree a /\
     knot_vector p (length kv - p - 1) kv /\ distinct_knots (KnotAxis p kv) us /\
     kv = match a with BezierAxis p => repeat 0%Qc (p + 1) ++ repeat 1%Qc (p + 1) | KnotAxis _ kv => kv end).
  { destruct a as [p|p kv].
    - exists p, (bezier_knots p). split; [reflexivity|]. split; [reflexivity|].
      pose proof (bezier_knots_wf p) as W. pose proof (bezier_knots_n p) as N. unfold ax_wf in W. rewrite N in W.
      cbn in N. rewrite N. split; [exact W|]. split; [|reflexivity].
      destruct DK as [S ->]. split; auto. intros x. rewrite N. split.
      + intros [<-|[<-|[]]]; [exists p|exists (p + 1)]; (split; [lia|]); rewrite bezier_knots_kn.
        * now rewrite Nat.leb_refl.
        * destruct (Nat.leb_spec (p + 1) p); [lia|auto].
      + intros (i & Hi & ->). rewrite bezier_knots_kn. destruct (i <=? p); cbn; auto.
    - exists p, kv. destruct Dk. auto 10. }
  destruct K as (p & kv & Ew & Ep & K & DK' & Ekv).
  destruct (insert_divided (ins p) p (HI p) epsk epsd _ kv us ns Hk Hd K DK' Sk Sd) as (kv' & f & R & K' & P & U & DM).
  exists (KnotAxis p kv'). rewrite Ew. cbn [insert_axis]. rewrite R. split; auto. split.
  - cbn [with_new_knots]. split; auto. pose proof K' as (L' & _). 
    replace (length kv' - p - 1) with (length kv - p - 1 + length (divided us ns)) by lia.
    split; auto. now rewrite <- Ekv.
  - pose proof (merged_length epsk us ns Sk) as Lm. split.
    + cbn [axis_unique]. rewrite U. lia.
    + pose proof K' as (L' & _). apply distinct_spans in DM; [lia|]. cbn.
      replace (length kv' - p - 1) with (length kv - p - 1 + length (divided us ns)) by lia. exact K'.
Qed.
End Axis.

(** * The two ways to list the knots *)
Lemma span_wise_divided t us : 0 < t ->
  span_wise_knots (Z.of_nat t) us = Some (divided us (repeat (t - 1) (length us - 1))).
Proof.
  intros Ht. unfold span_wise_knots. destruct (Z.eqb_spec (Z.of_nat t) 0); [lia|]. f_equal.
  destruct us as [|a us]; auto. cbn [length]. replace (S (length us) - 1) with (length us) by lia.
  revert a; induction us as [|b us IH]; intros a; auto.
  cbn [span_wise_from length repeat]. rewrite divided_cons, IH. f_equal.
  unfold equidistant. rewrite Nat2Z.id. apply map_ext_in. intros j Hj. apply in_seq in Hj.
  replace (t - 1 + 1) with t by lia. replace (zq (Z.of_nat t)) with (inj t) by reflexivity.
  pose proof (inj_pos t Ht). field. qlra.
Qed.
Lemma spread_divided us ns : length ns = length us - 1 -> spread us ns = divided us ns.
Proof.
  destruct us as [|a us]; auto. cbn [spread length]. replace (S (length us) - 1) with (length us) by lia.
  revert a ns; induction us as [|b us IH]; intros a [|n ns] L; try discriminate; auto.
  cbn [spread_from]. rewrite divided_cons, IH by (cbn in L; lia). f_equal.
  unfold equidistant. apply map_ext. intros j. pose proof (inj_S_pos n). field. qlra.
Qed.

(** * Handing out knots *)
Lemma argmax_spec l : l <> [] -> exists i, argmax l = Some i /\ i < length l /\
  forall j, j < length l -> (nth j l 0 <= nth i l 0)%Qc.
Proof.
  induction l as [|x l IH]; [easy|]. intros _. cbn [argmax]. destruct l as [|y l].
  - exists 0. cbn. repeat split; auto. intros [|j] Hj; [apply Qcle_refl|lia].
  - destruct IH as (i & E & Hi & H); [easy|]. rewrite E.
    destruct (qltb_spec x (nth i (y :: l) 0%Qc)) as [G|G].
    + exists (S i). split; auto. split; [cbn in *; lia|]. intros [|j] Hj.
      * cbn [nth] in *. apply Qclt_le_weak. exact G.
      * change (nth (S j) (x :: y :: l) 0%Qc) with (nth j (y :: l) 0%Qc).
        change (nth (S i) (x :: y :: l) 0%Qc) with (nth i (y :: l) 0%Qc). apply H. cbn in *. lia.
    + exists 0. split; auto. split; [cbn; lia|]. intros [|j] Hj; [apply Qcle_refl|].
      change (nth (S j) (x :: y :: l) 0%Qc) with (nth j (y :: l) 0%Qc). change (nth 0 (x :: y :: l) 0%Qc) with x.
      specialize (H j ltac:(cbn in *; lia)). apply Qcnot_lt_le in G. eapply Qcle_trans; [exact H|exact G].
Qed.

Section Even.
Variable ws : list Qc.
Hypothesis Hw : Forall (fun w => (0 < w)%Qc) ws.
Definition fair (ns : list nat) (ms : list Qc) : Prop :=
  length ns = length ws /\ length ms = length ws /\
  (forall i, i < length ws -> nth i ms 0%Qc = piece_width (nth i ws 0%Qc) (nth i ns 0)) /\
  forall i j, i < length ws -> j < length ws -> 0 < nth i ns 0 -> (nth j ms 0%Qc <= nth i ws 0 / inj (nth i ns 0%nat))%Qc.

Lemma width_pos i : i < length ws -> (0 < nth i ws 0)%Qc.
Proof. intros Hi. rewrite Forall_forall in Hw. apply Hw, nth_In, Hi. Qed.
Lemma div_lt_iff_width w a b : (0 < w)%Qc -> 0 < a -> 0 < b -> (w / inj a < w / inj b)%Qc -> b < a.
Proof.
  intros H Ha Hb G. destruct (le_lt_dec a b) as [Hab|]; auto. exfalso.
  pose proof (inj_le _ _ Hab) as I1. pose proof (inj_pos _ Ha). pose proof (inj_pos _ Hb).
  assert (E : (w / inj a - w / inj b = w * (inj b - inj a) / (inj a * inj b))%Qc) by (field; split; qlra).
  assert (P : (0 < inj a * inj b)%Qc) by qnra.
  assert (0 <= w * (inj b - inj a) / (inj a * inj b))%Qc.
  { apply div_nonneg; auto. qnra. }
  qlra.
Qed.
Lemma set_nth_sum l i x : i < length l -> list_sum (set_nth l i x) + nth i l 0 = list_sum l + x.
Proof.
  revert i; induction l as [|y l IH]; intros [|i] H; cbn [length] in H; try lia.
  - unfold set_nth. cbn [firstn skipn app nth]. rewrite !list_sum_cons. lia.
  - change (set_nth (y :: l) (S i) x) with (y :: set_nth l i x). rewrite !list_sum_cons. cbn [nth].
    specialize (IH i ltac:(lia)). lia.
Qed.
Lemma hand_out_spec steps : forall ns ms, ws <> [] -> fair ns ms ->
  exists ns' ms', hand_out steps ns ms = Some ns' /\ fair ns' ms' /\ list_sum ns' = list_sum ns + steps.
Proof.
  induction steps as [|steps IH]; intros ns ms Hne Fa.
  - exists ns, ms. split; [reflexivity|]. split; [exact Fa|lia].
  - pose proof Fa as (L1 & L2 & F1 & F2). cbn [hand_out].
    destruct (argmax_spec ms) as (i & E & Hi & Hm).
    { intros ->. destruct ws; [easy|discriminate]. }
    rewrite E. rewrite L2 in Hi, Hm. pose proof (width_pos i Hi) as Wi.
    set (n := nth i ns 0) in *.
    pose proof (inj_S_pos n) as P1. pose proof (inj_S_pos (n + 1)) as P2.
    assert (E2 : (nth i ms 0 * (inj (n + 1) / inj (n + 1 + 1)) = piece_width (nth i ws 0) (n + 1))%Qc).
    { rewrite F1 by auto. fold n. unfold piece_width. field. split; qlra. }
    rewrite E2.
    assert (Dec : (piece_width (nth i ws 0) (n + 1) <= nth i ms 0)%Qc).
    { rewrite <- E2. assert (0 < nth i ms 0)%Qc.
      { rewrite F1 by auto. fold n. unfold piece_width. apply div_pos; auto. }
      assert (inj (n + 1) / inj (n + 1 + 1) <= 1)%Qc.
      { replace 1%Qc with (inj (n + 1 + 1) / inj (n + 1 + 1))%Qc by (field; qlra).
        apply div_le_iff; auto. apply inj_le. lia. }
      qnra. }
    assert (Fa' : fair (set_nth ns i (n + 1)) (set_nth ms i (piece_width (nth i ws 0) (n + 1))%Qc)).
    { split; [now rewrite set_nth_length|]. split; [now rewrite set_nth_length|].
      assert (Low : forall j, j < length ws ->
                 (nth j (set_nth ms i (piece_width (nth i ws 0) (n + 1))) 0 <= nth j ms 0)%Qc).
      { intros j Hj. rewrite set_nth_nth by lia. destruct (Nat.eqb_spec j i) as [->|_]; [auto|apply Qcle_refl]. }
      split.
      - intros j Hj. rewrite !set_nth_nth by lia. destruct (Nat.eqb_spec j i) as [->|_]; auto.
      - intros k j Hkl Hj. rewrite (set_nth_nth ns) by lia. specialize (Low j Hj). destruct (Nat.eqb_spec k i) as [->|_].
        + intros _. specialize (Hm j Hj). rewrite (F1 i Hi) in Hm. fold n in Hm. unfold piece_width in Hm. qlra.
        + intros Hp. specialize (F2 k j Hkl Hj Hp). qlra. }
    destruct (IH _ _ Hne Fa') as (ns' & ms' & R & Ff & Sum). exists ns', ms'. split; auto. split; auto.
    pose proof (set_nth_sum ns i (n + 1) ltac:(lia)) as Q. fold n in Q. lia.
Qed.
Lemma fair_start : fair (repeat 0 (length ws)) ws.
Proof.
  split; [apply repeat_length|]. split; auto. split.
  - intros i Hi. rewrite nth_repeat. unfold piece_width. change (inj (0 + 1)) with 1%Qc. field. discriminate.
  - intros i j _ _ H. rewrite nth_repeat in H. lia.
Qed.
Lemma bounded_search (P : nat -> Prop) (dec : forall i, {P i} + {~ P i}) n :
  (exists i, i < n /\ P i) \/ forall i, i < n -> ~ P i.
Proof.
  induction n as [|n [(i & Hi & H)|H]].
  - right. lia.
  - left. exists i. split; [lia|auto].
  - destruct (dec n) as [G|G].
    + left. exists n. split; [lia|auto].
    + right. intros i Hi. destruct (Nat.eq_dec i n) as [->|]; auto. apply H. lia.
Qed.
Lemma sum_lt (a b : list nat) : length a = length b -> (forall i, i < length a -> nth i a 0 <= nth i b 0) ->
  forall j, j < length a -> nth j a 0 < nth j b 0 -> list_sum a < list_sum b.
Proof.
  assert (LE : forall a b : list nat, length a = length b -> (forall i, i < length a -> nth i a 0 <= nth i b 0) ->
            list_sum a <= list_sum b).
  { induction a0 as [|x a0 IH]; intros [|y b0] L H; try discriminate; auto. rewrite !list_sum_cons.
    pose proof (H 0 ltac:(cbn; lia)) as H0. cbn in H0.
    specialize (IH b0 ltac:(cbn in L; lia) ltac:(intros i Hi; apply (H (S i)); cbn; lia)). lia. }
  revert b; induction a as [|x a IH]; intros [|y b] L H j Hj G; try discriminate; [easy|]. rewrite !list_sum_cons.
  pose proof (H 0 ltac:(cbn; lia)) as H0. cbn [nth] in H0. destruct j as [|j].
  - cbn in G. specialize (LE a b ltac:(cbn in L; lia) ltac:(intros i Hi; apply (H (S i)); cbn; lia)). lia.
  - specialize (IH b ltac:(cbn in L; lia) ltac:(intros i Hi; apply (H (S i)); cbn; lia) j ltac:(cbn in Hj; lia) G). lia.
Qed.
Lemma fair_even ns ms : fair ns ms -> most_even ws ns.
Proof.
  intros (L1 & L2 & F1 & F2). split; auto. intros ks Lk Sum j Hj.
  destruct (bounded_search (fun i => (piece_width (nth j ws 0) (nth j ns 0%nat) <= piece_width (nth i ws 0) (nth i ks 0%nat))%Qc)
    (fun i => Qc_le_dec _ _) (length ws)) as [(i & Hi & H)|H]; [now exists i|exfalso].
  assert (H' : forall i, i < length ws -> (piece_width (nth i ws 0) (nth i ks 0%nat) < piece_width (nth j ws 0) (nth j ns 0%nat))%Qc).
  { intros i Hi. specialize (H i Hi). now apply Qcnot_le_lt. }
  assert (list_sum ns < list_sum ks); [|lia].
  apply sum_lt with (j := j); try lia.
  - intros i Hi. rewrite L1 in Hi. destruct (Nat.eq_dec (nth i ns 0) 0) as [E0|E0]; [lia|].
    specialize (F2 i j Hi Hj ltac:(lia)). rewrite F1 in F2 by auto. specialize (H' i Hi).
    assert (G : (nth i ws 0 / inj (nth i ks 0%nat + 1) < nth i ws 0 / inj (nth i ns 0%nat))%Qc).
    { unfold piece_width in *. eapply Qclt_le_trans; [exact H'|exact F2]. }
    apply div_lt_iff_width in G; [lia| |lia|lia]. now apply width_pos.
  - specialize (H' j Hj). unfold piece_width in H'. apply div_lt_iff_width in H'; [lia| |lia|lia]. now apply width_pos.
Qed.
End Even.

Lemma diff_widths us : diff us = widths us.
Proof.
  unfold widths. induction us as [|a us IH]; auto. destruct us as [|b r]; auto.
  change (diff (a :: b :: r)) with ((b - a)%Qc :: diff (b :: r)). rewrite IH. cbn [length].
  replace (S (S (length r)) - 1) with (S (length r)) by lia. replace (S (length r) - 1) with (length r) by lia.
  cbn [seq map nth]. f_equal. rewrite <- seq_shift, map_map. reflexivity.
Qed.
Lemma widths_pos us : StronglySorted Qclt us -> Forall (fun w => (0 < w)%Qc) (widths us).
Proof.
  intros S. rewrite <- diff_widths. induction S as [|a us S IH F]; [constructor|]. destruct us as [|b r]; [constructor|].
  change (diff (a :: b :: r)) with ((b - a)%Qc :: diff (b :: r)). constructor; auto. inversion F as [|? ? H _]; subst. qlra.
Qed.
Lemma widths_length us : length (widths us) = length us - 1.
Proof. unfold widths. now rewrite map_length, seq_length. Qed.
Lemma in_le_sum l x : In x l -> x <= list_sum l.
Proof. induction l as [|y l IH]; [easy|]. rewrite list_sum_cons. intros [->|H]; [lia|]. specialize (IH H). lia. Qed.
Lemma sum_repeat n k : list_sum (repeat n k) = n * k.
Proof. induction k; cbn [repeat]; [cbn; lia|]. rewrite list_sum_cons, IHk. lia. Qed.
Lemma spans_pos a : axis_ok a -> 0 < n_spans a.
Proof.
  destruct a as [p|p kv]; [cbn; lia|]. intros K. cbn in K. pose proof (kv_degree _ _ _ K) as Hpm. pose proof K as (L & ND & Hlt).
  destruct (distinct_count kv p (length kv - p - 1 - p) ND ltac:(lia)) as (us' & S' & E' & L').
  cbn [n_spans]. destruct (filter _ _); [|cbn; lia]. cbn in L'. exfalso. destruct us' as [|x [|y r]]; try discriminate.
  assert (H1 : In (kn kv p) [x]) by (apply E'; exists p; split; [lia|auto]).
  assert (H2 : In (kn kv (length kv - p - 1)) [x]) by (apply E'; exists (length kv - p - 1); split; [lia|auto]).
  destruct H1 as [H1|[]], H2 as [H2|[]]. rewrite <- H1, <- H2 in Hlt. qlra.
Qed.
Lemma divided_zero us k : divided us (repeat 0 k) = [].
Proof.
  revert k; induction us as [|a us IH]; intros k; auto. destruct us as [|b r]; auto. destruct k as [|k]; auto.
  cbn [repeat]. rewrite divided_cons, IH. reflexivity.
Qed.

Section Tile.
Variables (ins : nat -> list Qc -> Qc -> nat -> list Qc) (epsk epsd : Qc).
Hypothesis HI : forall p, inserts_new (ins p).
Hypothesis Hk : (0 < epsk)%Qc.
Hypothesis Hd : (0 < epsd)%Qc.

Definition wide (a : paxis) (t : nat) : Prop := divisible epsk a t /\ divisible epsd a t.

Lemma own_distinct a t : 0 < t -> wide a t -> distinct_knots a (axis_unique epsk a).
Proof. intros Ht [Dk _]. apply axis_unique_distinct; auto. eapply divisible_le; eauto. Qed.
Lemma own_length a t : 0 < t -> wide a t -> length (axis_unique epsk a) = S (n_spans a).
Proof. intros Ht W. apply distinct_spans; [eapply divisible_ok, W|]. eapply own_distinct; eauto. Qed.

Lemma span_wise_all axes tiling : Forall2 (fun a t => 0 < t /\ wide a t) axes tiling ->
  exists knots axes', additional_span_wise (map Z.of_nat tiling) (map (axis_unique epsk) axes) = Some knots /\
    length knots = length axes /\ insert_all ins epsd (map with_knots axes) knots = Some axes' /\
    Forall2 (fun at_ a' => tiled_per_span (fst at_) (snd at_) a') (combine axes tiling) axes' /\
    element_resolutions epsk axes' = map (fun x => n_spans (fst x) * snd x) (combine axes tiling) /\
    map n_spans axes' = map (fun x => n_spans (fst x) * snd x) (combine axes tiling).
Proof.
  induction 1 as [|a t axes tiling [Ht W] H IH].
  - exists [], []. repeat split. constructor.
  - destruct IH as (knots & axes' & E1 & E2 & E3 & E4 & E5 & E6).
    pose proof (own_distinct a t Ht W) as DK. pose proof (own_length a t Ht W) as Lu.
    cbn [map additional_span_wise]. rewrite span_wise_divided, E1 by auto.
    replace (length (axis_unique epsk a) - 1) with (n_spans a) by lia.
    destruct W as [Dk Dd].
    destruct (axis_divided ins epsk epsd HI Hk Hd a t (axis_unique epsk a) (repeat (t - 1) (n_spans a)) Ht Dk Dd DK)
      as (a' & R & WN & U & N).
    { apply repeat_length. }
    { apply Forall_forall. intros x Hx. apply repeat_spec in Hx. lia. }
    assert (EN : n_spans a + list_sum (repeat (t - 1) (n_spans a)) = n_spans a * t).
    { rewrite sum_repeat. destruct t; [lia|]. cbn. nia. }
    eexists _, (a' :: axes'). split; [reflexivity|]. split; [cbn; lia|].
    cbn [insert_all]. rewrite R, E3. split; [reflexivity|]. cbn [combine]. split.
    { constructor; auto. exists (axis_unique epsk a). auto. }
    cbn [element_resolutions map fst snd]. fold (element_resolutions epsk axes'). rewrite E5, E6, U, N, EN. auto.
Qed.
Lemma tile_span_wise axes tiling : axes <> [] -> Forall2 (fun a t => 0 < t /\ wide a t) axes tiling ->
  exists axes', tile ins epsk epsd true axes (map Z.of_nat tiling) = (Tiled axes', map Z.of_nat tiling) /\
    Forall2 (fun at_ a' => tiled_per_span (fst at_) (snd at_) a') (combine axes tiling) axes' /\
    element_resolutions epsk axes' = map (fun x => n_spans (fst x) * snd x) (combine axes tiling) /\
    map n_spans axes' = map (fun x => n_spans (fst x) * snd x) (combine axes tiling).
Proof.
  intros Hne H. destruct (span_wise_all axes tiling H) as (knots & axes' & E1 & E2 & E3 & E4 & E5 & E6).
  exists axes'. split; [|auto]. unfold tile. rewrite E1. cbn [fst snd]. destruct knots as [|k knots].
  - destruct axes; [easy|discriminate].
  - now rewrite E3.
Qed.

Lemma global_rest axes tiling : Forall2 (fun a t => wide a 1 /\ t <= n_spans a) axes tiling ->
  additional_global (map Z.of_nat tiling) (map (axis_unique epsk) axes) = (Some [], map Z.of_nat (map n_spans axes)) /\
  element_resolutions epsk (map with_knots axes) = map n_spans axes /\
  map n_spans (map with_knots axes) = map n_spans axes.
Proof.
  induction 1 as [|a t axes tiling [W Ht] H (IH1 & IH2 & IH3)].
  - repeat split.
  - pose proof (own_distinct a 1 ltac:(lia) W) as DK. pose proof (own_length a 1 ltac:(lia) W) as Lu.
    split.
    + cbn [map additional_global]. rewrite Lu, IH1. cbn [fst snd].
      replace (Z.of_nat (S (n_spans a)) - 1)%Z with (Z.of_nat (n_spans a)) by lia.
      destruct (Z.eqb_spec (Z.of_nat t) (Z.of_nat (n_spans a))) as [E|E]; [now rewrite E|].
      destruct (Z.ltb_spec (Z.of_nat t) (Z.of_nat (n_spans a))); [reflexivity|lia].
    + destruct W as [Dk Dd].
      destruct (axis_divided ins epsk epsd HI Hk Hd a 1 (axis_unique epsk a) (repeat 0 (n_spans a)) ltac:(lia) Dk Dd DK)
        as (a' & R & WN & U & N).
      { apply repeat_length. }
      { apply Forall_forall. intros x Hx. apply repeat_spec in Hx. lia. }
      rewrite divided_zero in R. rewrite sum_repeat, Nat.mul_0_l, Nat.add_0_r in U, N.
      assert (E : a' = with_knots a) by (destruct a; cbn in R; injection R as <-; reflexivity). subst a'.
      cbn [map element_resolutions]. fold (element_resolutions epsk (map with_knots axes)).
      rewrite U, N, IH3. split; auto. f_equal. exact IH2.
Qed.

Lemma insert_all_nil axes : insert_all ins epsd axes [] = Some axes.
Proof. now destruct axes. Qed.

Lemma global_all fine coarse tf tc :
  Forall2 (fun a t => wide a t /\ n_spans a < t) fine tf ->
  Forall2 (fun a t => wide a 1 /\ t <= n_spans a) coarse tc ->
  exists knots axes',
    additional_global (map Z.of_nat (tf ++ tc)) (map (axis_unique epsk) (fine ++ coarse)) =
      (Some knots, map Z.of_nat (tf ++ map n_spans coarse)) /\
    length knots = length fine /\
    insert_all ins epsd (map with_knots (fine ++ coarse)) knots = Some (axes' ++ map with_knots coarse) /\
    Forall2 (fun at_ a' => tiled_overall (fst at_) (snd at_) a') (combine fine tf) axes' /\
    element_resolutions epsk axes' = tf /\ map n_spans axes' = tf.
Proof.
  intros H C. induction H as [|a t fine tf [W Ht] H IH].
  - destruct (global_rest _ _ C) as (E1 & _). exists [], []. cbn [app]. split; [exact E1|].
    split; [reflexivity|]. split; [apply insert_all_nil|]. repeat split. constructor.
  - destruct IH as (knots & axes' & E1 & E2 & E3 & E4 & E5 & E6).
    assert (Ht0 : 0 < t) by lia.
    pose proof (own_distinct a t Ht0 W) as DK. pose proof (own_length a t Ht0 W) as Lu.
    set (us := axis_unique epsk a) in *. destruct W as [Dk Dd].
    pose proof (spans_pos a (divisible_ok _ _ _ Dk)) as Hsp.
    pose proof (widths_pos us (proj1 DK)) as WP. pose proof (widths_length us) as WL.
    destruct (hand_out_spec (widths us) WP (t - n_spans a) (repeat 0 (length (widths us))) (widths us))
      as (ns & ms & HO & Fa & Sum).
    { intros E. rewrite E in WL. cbn in WL. lia. }
    { apply fair_start. }
    assert (Ln : length ns = n_spans a) by (destruct Fa as (L1 & _); lia).
    rewrite sum_repeat, Nat.mul_0_l, Nat.add_0_l in Sum.
    cbn [app map additional_global]. fold us. rewrite E1. cbn [fst snd option_map].
    replace (Z.of_nat (length us) - 1)%Z with (Z.of_nat (n_spans a)) by lia.
    destruct (Z.eqb_spec (Z.of_nat t) (Z.of_nat (n_spans a))) as [E|_]; [lia|].
    destruct (Z.ltb_spec (Z.of_nat t) (Z.of_nat (n_spans a))); [lia|].
    replace (Z.to_nat (Z.of_nat t - Z.of_nat (n_spans a))) with (t - n_spans a) by lia.
    rewrite diff_widths. replace (length us - 1) with (length (widths us)) by lia. rewrite HO.
    rewrite spread_divided by lia.
    destruct (axis_divided ins epsk epsd HI Hk Hd a t us ns Ht0 Dk Dd DK Ln) as (a' & R & WN & U & N).
    { apply Forall_forall. intros x Hx. apply in_le_sum in Hx. lia. }
    exists (divided us ns :: knots), (a' :: axes'). split; [reflexivity|]. split; [cbn; lia|].
    cbn [insert_all]. rewrite R, E3. split; [reflexivity|]. cbn [combine]. split.
    { constructor; auto. exists us, ns. split; auto. split; [eapply fair_even; eauto|]. auto. }
    cbn [element_resolutions map fst snd]. fold (element_resolutions epsk axes'). rewrite E5, E6, U, N, Sum.
    replace (n_spans a + (t - n_spans a)) with t by lia. auto.
Qed.
Lemma tile_global fine coarse tf tc : fine <> [] ->
  Forall2 (fun a t => wide a t /\ n_spans a < t) fine tf ->
  Forall2 (fun a t => wide a 1 /\ t <= n_spans a) coarse tc ->
  exists axes', tile ins epsk epsd false (fine ++ coarse) (map Z.of_nat (tf ++ tc)) =
      (Tiled (axes' ++ map with_knots coarse), map Z.of_nat (tf ++ map n_spans coarse)) /\
    Forall2 (fun at_ a' => tiled_overall (fst at_) (snd at_) a') (combine fine tf) axes' /\
    element_resolutions epsk (axes' ++ map with_knots coarse) = tf ++ map n_spans coarse /\
    map n_spans (axes' ++ map with_knots coarse) = tf ++ map n_spans coarse.
Proof.
  intros Hne H C. destruct (global_all fine coarse tf tc H C) as (knots & axes' & E1 & E2 & E3 & E4 & E5 & E6).
  destruct (global_rest _ _ C) as (_ & C2 & C3).
  exists axes'. split; [|split; [exact E4|]].
  - unfold tile. rewrite E1. cbn [fst snd]. destruct knots as [|k knots].
    + destruct fine; [easy|discriminate].
    + now rewrite E3.
  - unfold element_resolutions in *. rewrite !map_app, E5, E6. rewrite C3. split; f_equal. exact C2.
Qed.
End Tile.

(** * Closing tiles *)
Lemma nth_error_blocks {A B} (g : A -> list B) r L k i x :
  (forall y, In y L -> length (g y) = r) -> nth_error L k = Some x -> i < r ->
  nth_error (flat_map g L) (i + r * k) = nth_error (g x) i.
Proof.
  revert k; induction L as [|y L IH]; intros [|k] H E Hi; try discriminate; cbn [flat_map].
  - injection E as ->. rewrite Nat.mul_0_r, Nat.add_0_r. apply nth_error_app1. rewrite H by now left. exact Hi.
  - rewrite nth_error_app2 by (rewrite H by (now left); nia). rewrite H by now left.
    replace (i + r * S k - r) with (i + r * k) by nia. apply IH; auto. intros z Hz. apply H. now right.
Qed.
Lemma cartesian_nth res c : below res c -> nth_error (cartesian res) (undigits res c) = Some c.
Proof.
  induction 1 as [|r d res c Hd H IH]; [reflexivity|]. cbn [cartesian undigits].
  rewrite (nth_error_blocks _ r _ _ _ c); auto.
  - rewrite nth_error_map, nth_error_seq by auto. reflexivity.
  - intros y _. now rewrite map_length, seq_length.
Qed.

Lemma distinct_ends a us : axis_ok a -> distinct_knots a us ->
  nth 0 us 0%Qc = ax_lower a /\ nth (length us - 1) us 0%Qc = ax_upper a.
Proof.
  destruct a as [p|p kv]; intros K [S E].
  - subst. split; reflexivity.
  - cbn in K. pose proof (kv_degree _ _ _ K) as Hpm. pose proof K as (L & ND & _). pose proof (kn_mono kv ND) as M.
    cbn [ax_lower ax_upper ax_n]. set (m := length kv - p - 1) in *.
    assert (H1 : In (kn kv p) us) by (apply E; exists p; split; [lia|auto]).
    assert (H2 : In (kn kv m) us) by (apply E; exists m; split; [lia|auto]).
    assert (B : forall x, In x us -> (kn kv p <= x)%Qc /\ (x <= kn kv m)%Qc).
    { intros x Hx. apply E in Hx. destruct Hx as (i & Hi & ->). split; apply M; lia. }
    split.
    + inversion S as [|x r S' F]; subst; [easy|]. cbn [nth]. apply Qcle_antisym; [|now apply B; left].
      destruct H1 as [<-|H1]; [apply Qcle_refl|]. rewrite Forall_forall in F. apply Qclt_le_weak. now apply F.
    + rewrite <- (strict_last us (kn kv m) 0%Qc S H2 (fun x Hx => proj2 (B x Hx))).
      symmetry. apply last_nth.
Qed.
Lemma strict_nodup l : StronglySorted Qclt l -> NoDup l.
Proof.
  induction 1 as [|x k H IH HF]; constructor; auto. intros Hx. rewrite Forall_forall in HF. specialize (HF x Hx). qlra.
Qed.

Lemma resolutions_distinct eps axes uss : (0 < eps)%Qc ->
  Forall2 (fun a us => divisible eps a 1 /\ distinct_knots a us) axes uss ->
  element_resolutions eps axes = map (fun us => length us - 1) uss.
Proof.
  intros He. induction 1 as [|a us axes uss [D E] H IH]; auto. cbn [element_resolutions map].
  fold (element_resolutions eps axes). rewrite IH. f_equal.
  pose proof (axis_unique_distinct eps a He D) as E'. pose proof (divisible_ok _ _ _ D) as K.
  now rewrite (distinct_spans _ _ K E), (distinct_spans _ _ K E').
Qed.
Lemma closure_spec eps axes uss c k a us : (0 < eps)%Qc ->
  Forall2 (fun a us => divisible eps a 1 /\ distinct_knots a us) axes uss ->
  below (map (fun us => length us - 1) uss) c ->
  nth_error axes k = Some a -> nth_error uss k = Some us -> 2 <= length us - 1 ->
  exists x, face_closure (element_resolutions eps axes) k (flat_id (map (fun us => length us - 1) uss) c) = Some x /\
    (x = MinClosure <-> nth (nth k c 0) us 0%Qc = ax_lower a) /\
    (x = MaxClosure <-> nth (nth k c 0 + 1) us 0%Qc = ax_upper a).
Proof.
  intros He H B Ea Eu H2. rewrite (resolutions_distinct eps axes uss He H). set (res := map _ uss) in *.
  assert (Lc : length c = length res) by (symmetry; eapply Forall2_len, B).
  unfold face_closure. rewrite flat_id_undigits, (cartesian_nth res c B) by auto.
  assert (Er : nth k res 0 = length us - 1).
  { unfold res. apply nth_error_nth. now rewrite nth_error_map, Eu. }
  assert (Hc : nth k c 0 < length us - 1).
  { assert (Hkl : k < length c).
    { rewrite Lc. unfold res. rewrite map_length. apply nth_error_Some. now rewrite Eu. }
    rewrite <- Er. clear -B Hkl. revert k Hkl. induction B; intros [|k] Hkl; cbn in *; try lia. apply IHB. lia. }
  assert (G : divisible eps a 1 /\ distinct_knots a us).
  { clear -H Ea Eu. revert k Ea Eu. induction H; intros [|k] Ea Eu; try discriminate.
    - injection Ea as ->. injection Eu as ->. auto.
    - eapply IHForall2; eauto. }
  destruct G as [D DK]. destruct (distinct_ends a us (divisible_ok _ _ _ D) DK) as [E1 E2].
  pose proof (strict_nodup us (proj1 DK)) as ND. rewrite NoDup_nth with (d := 0%Qc) in ND.
  rewrite Er, <- E1, <- E2. set (i := nth k c 0) in *. eexists. split; [reflexivity|].
  destruct (Nat.eqb_spec i 0) as [Hi|Hi]; [|destruct (Nat.eqb_spec (i + 1) (length us - 1)) as [Hj|Hj]].
  - rewrite Hi. split; [tauto|]. split; [discriminate|]. intros E. apply ND in E; lia.
  - split; [|now rewrite Hj]. split; [discriminate|]. intros E. apply ND in E; lia.
  - split; (split; [discriminate|]); intros E; apply ND in E; lia.
Qed.
