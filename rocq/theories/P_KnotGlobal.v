(** Knot insertion matrices: entries, refinement of values, global matrix. *)
From Coq Require Import List Arith Lia ZArith QArith Qcanon Permutation Sorted.
From Verif Require Import Base BaseRadix BaseQc BaseSort S_Grid M_Numpy M_Grid P_Grid
  S_Spline P_Basis P_Refine P_Spline M_KnotInsert S_KnotInsert P_KnotInsert.
Import ListNotations.
Local Open Scope Qc_scope.

Lemma filter_length_perm {A} (f : A -> bool) l l' :
  Permutation l l' -> length (filter f l) = length (filter f l').
Proof.
  induction 1; cbn; auto.
  - destruct (f x); cbn; lia.
  - destruct (f x), (f y); cbn; lia.
  - lia.
Qed.

Lemma filter_length_le {A} (f : A -> bool) l : (length (filter f l) <= length l)%nat.
Proof. induction l; cbn; auto. destruct (f a); cbn; lia. Qed.

Lemma all_some_map {A B} (f : A -> option B) (g : A -> B) l :
  (forall x, In x l -> f x = Some (g x)) -> all_some (map f l) = Some (map g l).
Proof.
  induction l; cbn; intros H; auto. rewrite H by auto. rewrite IHl by auto. reflexivity.
Qed.

Lemma nth_map_seq {B} (g : nat -> B) m i d : (i < m)%nat -> nth i (map g (seq 0 m)) d = g i.
Proof.
  intros H. rewrite (nth_indep _ d (g 0%nat)) by (rewrite map_length, seq_length; lia).
  rewrite map_nth, seq_nth by lia. reflexivity.
Qed.

Lemma qsum_filter_if {A} (f : A -> bool) (g : A -> Qc) l :
  qsum (map (fun e => if f e then g e else 0) l) = qsum (map g (filter f l)).
Proof.
  induction l; cbn; auto. rewrite IHl. destruct (f a); cbn; ring.
Qed.

Section Insert.
Variables (tol : Qc) (p n : nat) (old ks new : list Qc).
Hypothesis I : insertable tol p n old ks.
Hypothesis Sn : qsorted new.
Hypothesis P : Permutation new (old ++ ks).

Let U := kn old.
Let T := kn new.
Let n' := (n + length ks)%nat.

Lemma ins_old_sorted : qsorted old.
Proof. apply nd_sorted. apply I. Qed.
Lemma ins_old_len : length old = (n + p + 1)%nat.
Proof. apply I. Qed.
Lemma ins_new_len : length new = (n' + p + 1)%nat.
Proof. rewrite (Permutation_length P), app_length, ins_old_len. unfold n'. lia. Qed.
Lemma ins_U : mono U.
Proof. apply kn_mono, I. Qed.
Lemma ins_T : mono T.
Proof. apply kn_mono, nd_sorted, Sn. Qed.
Lemma ins_pn : (p < n)%nat.
Proof.
  destruct (le_lt_dec n p); auto. pose proof (ins_U n p l).
  destruct I as [_ (_ & _ & H0) _ _ _ _ _]. unfold U in *. exfalso. qlra.
Qed.
Lemma ins_inside_nth x : In x ks -> nth 0 old 0 < x /\ x < nth (length old - 1) old 0.
Proof.
  intros H. apply (ins_inside _ _ _ _ _ I) in H. pose proof ins_old_len.
  rewrite <- (kn_nth old 0 0), <- (kn_nth old (length old - 1) 0) by lia.
  rewrite (ins_left _ _ _ _ _ I). pose proof (ins_U n (length old - 1)%nat ltac:(lia)).
  unfold U in *. destruct H. split; auto. qlra.
Qed.
Lemma ins_old_ne : old <> [].
Proof. intros E. pose proof ins_old_len. rewrite E in H. cbn in H. lia. Qed.

Lemma ins_refines : exists phi, refines U T phi /\ phi (length old) = length new.
Proof.
  apply sub_refines.
  - apply (sorted_superset_subseq old ks); auto using ins_old_sorted.
  - apply ins_old_ne.
  - rewrite !last_nth. apply (last_perm old ks new); auto using ins_old_ne, ins_old_sorted.
    intros x Hx. now apply ins_inside_nth.
Qed.

Lemma ins_T0 : T 0%nat = U 0%nat.
Proof.
  unfold T, U. pose proof ins_old_len. pose proof ins_new_len.
  rewrite (kn_nth new 0 0), (kn_nth old 0 0) by lia.
  apply (first_perm old ks new); auto using ins_old_ne, ins_old_sorted.
  intros x Hx. now apply ins_inside_nth.
Qed.

(** Exactly the last p+1 refined knots are at or above the upper bound. *)
Lemma ins_T_below : T (n' - 1)%nat < U n.
Proof.
  pose proof ins_old_len as Lo. pose proof ins_new_len as Ln. pose proof ins_pn as Hpn.
  destruct (Qclt_le_dec (T (n' - 1)%nat) (U n)) as [|G]; auto. exfalso.
  set (f := fun x => qleb (U n) x).
  pose proof (filter_length_perm f _ _ P) as E.
  rewrite filter_app, app_length in E.
  assert (E1 : filter f ks = []).
  { apply filter_none. intros x Hx. unfold f. destruct (qleb_spec (U n) x); auto.
    apply (ins_inside _ _ _ _ _ I) in Hx. unfold U in *. exfalso. destruct Hx. qlra. }
  rewrite E1 in E. cbn in E.
  assert (E2 : (length (filter f old) <= p + 1)%nat).
  { rewrite <- (firstn_skipn n old). rewrite filter_app, app_length.
    rewrite (filter_none f (firstn n old)).
    - cbn. etransitivity; [apply filter_length_le|]. rewrite skipn_length. lia.
    - intros x Hx. apply (in_firstn _ _ _ 0) in Hx. destruct Hx as (k & K1 & K2 & ->).
      unfold f. destruct (qleb_spec (U n) (nth k old 0)); auto.
      rewrite <- (kn_nth old k 0) in q by lia. pose proof (ins_U k (n - 1)%nat ltac:(lia)).
      pose proof (ins_right _ _ _ _ _ I). unfold U in *. exfalso. qlra. }
  assert (E3 : (p + 2 <= length (filter f new))%nat).
  { rewrite <- (firstn_skipn (n' - 1) new). rewrite filter_app, app_length.
    rewrite (filter_all f (skipn (n' - 1) new)).
    - rewrite skipn_length. lia.
    - intros x Hx. destruct (In_nth _ _ 0 Hx) as (k & Hk & <-).
      rewrite nth_skipn. rewrite skipn_length in Hk. unfold f.
      destruct (qleb_spec (U n) (nth (n' - 1 + k) new 0)) as [|N]; auto. exfalso. apply N.
      rewrite <- (kn_nth new _ 0) by lia. pose proof (ins_T (n' - 1)%nat (n' - 1 + k)%nat ltac:(lia)).
      unfold T in *. qlra. }
  lia.
Qed.

Lemma ins_T_upper : T n' = U n.
Proof.
  destruct ins_refines as (phi & RF & Hphi). pose proof RF as [Hi E].
  pose proof ins_old_len. pose proof ins_new_len. pose proof ins_pn.
  pose proof (phi_grow phi n (length old) Hi ltac:(lia)) as G.
  assert (n' - 1 < phi n)%nat.
  { apply (phi_ge U T phi ins_T RF). apply ins_T_below. }
  assert (phi n = n') by (unfold n' in *; lia).
  rewrite <- (E n), H3. reflexivity.
Qed.

Lemma ins_T_lower : T p = U p.
Proof.
  destruct ins_refines as (phi & [Hi E] & Hphi).
  pose proof (phi_grow phi 0 p Hi ltac:(lia)) as G.
  pose proof (ins_T 0%nat p ltac:(lia)). pose proof (ins_T p (phi p) ltac:(lia)).
  rewrite E in H0. rewrite ins_T0 in H.
  pose proof (ins_left _ _ _ _ _ I). unfold U in *. rewrite H1 in H. now apply Qcle_antisym.
Qed.

Lemma ins_new_kv : knot_vector p n' new.
Proof.
  split; [apply ins_new_len|]. split; [now apply nd_sorted|].
  pose proof ins_T_lower. pose proof ins_T_upper. unfold T, U in *. rewrite H, H0.
  apply (ins_kv _ _ _ _ _ I).
Qed.

Lemma ins_domain u : in_domain p n' new u <-> in_domain p n old u.
Proof.
  pose proof ins_T_lower. pose proof ins_T_upper. unfold T, U in *.
  unfold in_domain. now rewrite H, H0.
Qed.

(** The span base of every new control point. *)
Lemma ins_spans : exists mus mu,
  knot_span_bases tol old new = Some mus /\
  forall i, (i < n')%nat ->
    nth i mus 0%Z = Z.of_nat (mu i) /\ (p <= mu i)%nat /\ (mu i < n)%nat /\
    U (mu i) <= T i /\ T i < U (S (mu i)).
Proof.
  pose proof ins_old_len as Lo. pose proof ins_new_len as Ln. pose proof ins_pn as Hpn.
  destruct (knot_span_bases_spec tol old ks new) as (mus & Emus & Hmus).
  - apply I.
  - intros x y Hx Hy. apply (ins_sep _ _ _ _ _ I); auto. eapply Permutation_in; [exact P|]. auto.
  - apply ins_old_ne.
  - apply ins_old_sorted.
  - exact Sn.
  - exact P.
  - apply ins_inside_nth.
  - exists mus, (fun i => Z.to_nat (nth i mus 0%Z)). split; auto.
    intros i Hi.
    assert (Hlt : T i < U n).
    { pose proof (ins_T i (n' - 1)%nat ltac:(unfold n' in *; lia)). pose proof ins_T_below. qlra. }
    destruct (Hmus i) as (m & Em & Hm1 & Hm2 & Hm3).
    { lia. }
    { rewrite <- (kn_nth new i 0), <- (kn_nth old (length old - 1) 0) by lia.
      pose proof (ins_U n (length old - 1)%nat ltac:(lia)). unfold T, U in *. qlra. }
    rewrite Em, Nat2Z.id. split; auto.
    rewrite <- (kn_nth new i 0) in Hm2, Hm3 by lia. rewrite <- (kn_nth old m 0) in Hm2 by lia.
    rewrite <- (kn_nth old (S m) 0) in Hm3 by lia. fold U T in Hm2, Hm3.
    split; [|split; [|split]]; auto.
    + destruct (le_lt_dec p m); auto. exfalso.
      pose proof (ins_U (S m) p ltac:(lia)). pose proof (ins_T 0%nat i ltac:(lia)).
      rewrite ins_T0 in H0. pose proof (ins_left _ _ _ _ _ I). unfold U in *. qlra.
    + destruct (le_lt_dec n m); auto. exfalso. pose proof (ins_U n m l). qlra.
Qed.

Lemma insertion_matrix_spec : exists rows mus mu,
  insertion_matrix tol old new p = Some (rows, mus) /\ length rows = n' /\
  forall i, (i < n')%nat ->
    nth i mus 0%Z = Z.of_nat (mu i) /\ (p <= mu i)%nat /\ (mu i < n)%nat /\
    U (mu i) <= T i /\ T i < U (S (mu i)) /\
    length (nth i rows []) = n /\
    forall c, (c < n)%nat -> nth c (nth i rows []) 0 = blossom U (mu i) (args T i p) c.
Proof.
  pose proof ins_old_len as Lo. pose proof ins_new_len as Ln. pose proof ins_pn as Hpn.
  pose proof (ins_degree _ _ _ _ _ I) as Hp.
  destruct ins_spans as (mus & mu & Emus & Hmu).
  set (row := fun i => map (fun c => if (c <? mu i - p)%nat then 0
                 else row_values old new p i (mu i) (c - (mu i - p))) (seq 0 n)).
  exists (map row (seq 0 n')), mus, mu. unfold insertion_matrix. rewrite Emus.
  replace (length old - p - 1)%nat with n by lia.
  replace (length new - p - 1)%nat with n' by lia.
  rewrite (all_some_map _ row).
  2:{ intros i Hi. apply in_seq in Hi. destruct (Hmu i ltac:(lia)) as (E & A & B & _).
      unfold matrix_row. rewrite E.
      destruct (Z.ltb_spec (Z.of_nat (mu i) - Z.of_nat p) 0); [lia|].
      destruct (Z.leb_spec (Z.of_nat n) (Z.of_nat (mu i) - Z.of_nat p + Z.of_nat (Nat.max p 1))); [lia|].
      cbn [orb]. rewrite Nat2Z.id.
      replace (Z.to_nat (Z.of_nat (mu i) - Z.of_nat p)) with (mu i - p)%nat by lia. reflexivity. }
  split; [reflexivity|]. split; [now rewrite map_length, seq_length|].
  intros i Hi. destruct (Hmu i Hi) as (E & A & B & C & D).
  do 5 (split; auto). rewrite nth_map_seq by lia. unfold row. split.
  - now rewrite map_length, seq_length.
  - intros c Hc. rewrite nth_map_seq by lia.
    destruct (Nat.ltb_spec c (mu i - p)) as [L|L].
    + symmetry. apply blossom_left. rewrite length_args. lia.
    + rewrite row_values_spec by lia. unfold level.
      destruct (Nat.leb_spec (c - (mu i - p)) p).
      * replace (mu i - p + (c - (mu i - p)))%nat with c by lia. reflexivity.
      * symmetry. apply blossom_right. lia.
Qed.

(** Basis functions of the old knot vector in terms of the refined one. *)
Lemma ins_basis rows mus u c :
  insertion_matrix tol old new p = Some (rows, mus) -> in_domain p n old u -> (c < n)%nat ->
  qsum (map (fun j => nth c (nth j rows []) 0 * bspline_basis new p n' u j) (seq 0 n'))
  = bspline_basis old p n u c.
Proof.
  intros Erows Hu Hc.
  pose proof ins_pn as Hpn.
  destruct insertion_matrix_spec as (rows' & mus' & mu & E & Hlen & H).
  rewrite Erows in E. injection E as <- <-.
  destruct ins_refines as (phi & RF & _).
  pose proof (find_span_spec new p n' u ins_new_kv ltac:(now apply ins_domain)) as Hs.
  set (sg := find_span new p n' u) in *. destruct Hs as (S1 & S2 & S3 & S4 & S5).
  fold T in S3, S4, S5.
  unfold bspline_basis. fold sg. fold T. fold U.
  assert (Espan : find_span old p n u = mu sg).
  { apply find_span_unique; auto; [apply I|].
    destruct (H sg S2) as (_ & A & B & C & D & _).
    assert (T (S sg) <= U (S (mu sg))).
    { pose proof (phi_ge U T phi ins_T RF sg _ D) as G. destruct RF as [_ E].
      rewrite <- E. apply ins_T. lia. }
    fold U. split; auto. split; auto. split; [qlra|]. split; [qlra|].
    destruct S5 as [S5|[S5 S6]]; [left; qlra|].
    rewrite ins_T_upper in S6.
    pose proof (ins_U (S (mu sg)) n ltac:(lia)). rewrite S6 in S5.
    assert (U (S (mu sg)) = U n) by (apply Qcle_antisym; auto; rewrite <- S6; auto).
    right. split; congruence. }
  rewrite Espan.
  rewrite <- (refine_basis U T phi mu sg ins_U ins_T RF) with (u := u); auto.
  - replace n' with (S sg + (n' - S sg))%nat by lia.
    rewrite seq_app, map_app, qsum_app.
    rewrite (qsum_zero _ (seq (0 + S sg) (n' - S sg))).
    + rewrite Qcplus_0_r. apply qsum_ext. intros j Hj. apply in_seq in Hj. f_equal.
      unfold alpha. apply H; lia.
    + intros j Hj. apply in_seq in Hj. rewrite basis_blossom, blossom_right by lia. ring.
  - intros j Hj. destruct (H j ltac:(lia)) as (_ & _ & _ & G1 & G2 & _). auto.
Qed.
End Insert.

(** Index bookkeeping *)
Lemma set_nth_app {A} (a : list A) x b y : set_nth (a ++ x :: b) (length a) y = a ++ y :: b.
Proof.
  unfold set_nth. rewrite firstn_app, Nat.sub_diag, firstn_all, firstn_O, app_nil_r.
  rewrite skipn_app, skipn_all, Nat.sub_diag. reflexivity.
Qed.

Lemma local_to_global_undigits ns ls :
  length ls = length ns -> local_to_global_id ns ls = undigits ns ls.
Proof.
  intros H. unfold local_to_global_id.
  assert (G : forall l, fold_left (fun g (ln : nat * nat) => (g * snd ln + fst ln)%nat)
            (rev (combine ls ns)) l = (undigits ns ls + prodn ns * l)%nat).
  { revert ns H; induction ls as [|x ls IH]; intros [|n ns] H l; cbn in H; try lia.
    - cbn. lia.
    - cbn [combine rev]. rewrite fold_left_app, IH by lia. cbn. nia. }
  destruct (rev (combine ls ns)) as [|[l r] rest] eqn:E.
  - assert (combine ls ns = []) by (rewrite <- (rev_involutive (combine ls ns)), E; reflexivity).
    destruct ls, ns; cbn in *; try lia; discriminate.
  - specialize (G 0%nat). cbn in G. rewrite G. lia.
Qed.

Lemma fold_left_mul_prodn l : fold_left Nat.mul l 1%nat = prodn l.
Proof. rewrite fold_left_mul. lia. Qed.

Lemma digits_split a r b g :
  digits (a ++ r :: b) g = digits a g ++ ((g / prodn a) mod r)%nat :: digits b (g / prodn a / r).
Proof. rewrite digits_app. reflexivity. Qed.

(** Sum over the entries of one row. *)
Lemma qsum_rows {A} (f : nat -> list A) (g : A -> Qc) (row : A -> nat) m r :
  (r < m)%nat -> (forall j e, In e (f j) -> row e = j) ->
  qsum (map (fun e => if Nat.eqb (row e) r then g e else 0) (flat_map f (seq 0 m)))
  = qsum (map g (f r)).
Proof.
  intros Hr H. rewrite qsum_flat_map.
  rewrite (qsum_single _ m r); auto.
  - apply qsum_ext. intros e He. rewrite (H r e He), Nat.eqb_refl. reflexivity.
  - intros i Hi Hne. apply qsum_zero. intros e He. rewrite (H i e He).
    destruct (Nat.eqb_spec i r); [lia|reflexivity].
Qed.

Lemma firstn_skipn_insert (k : nat) (a b : list nat) :
  length a = k -> firstn k (a ++ b) = a /\ skipn k (a ++ b) = b.
Proof.
  intros <-. rewrite firstn_app, Nat.sub_diag, firstn_all, firstn_O, app_nil_r.
  rewrite skipn_app, skipn_all, Nat.sub_diag. auto.
Qed.

(** Main result. *)
Lemma insertion_preserves_values tol pre p old post ks cps dim :
  bs_wf (BSpline (pre ++ (p, old) :: post) cps) ->
  Forall (fun a => (0 < n_basis a)%nat) (pre ++ (p, old) :: post) ->
  insertable tol p (length old - p - 1) old ks ->
  exists g,
    global_insertion_matrix tol (pre ++ (p, old) :: post) (length pre) ks = Some g /\
    gm_buffer g = qsort ks /\
    convex_rows (gm_entries g) (gm_new g) (gm_old g) /\
    forall new, Permutation new (old ++ ks) -> non_decreasing new ->
    gm_kv g = new /\
    let s := BSpline (pre ++ (p, old) :: post) cps in
    let s' := BSpline (pre ++ (p, new) :: post) (apply_entries (gm_entries g) (gm_new g) dim cps) in
    bs_wf s' /\
    forall us, bs_in_domain s us ->
      bs_in_domain s' us /\
      forall d, (d < dim)%nat -> bs_value s' us d = bs_value s us d.
Proof.
  intros [HF Hlen] Hpos I. set (n := (length old - p - 1)%nat) in *.
  cbn [bs_axes bs_cps bs_res] in *.
  assert (Hnd : non_decreasing old) by apply I.
  assert (Lo : length old = (n + p + 1)%nat) by apply I.
  assert (Hpn : (p < n)%nat) by (eapply ins_pn; eauto).
  assert (Iq : insertable tol p n old (qsort ks)).
  { destruct I as [? ? ? ? ? ins_sep0 ins_inside0]. constructor; auto.
    - intros x y Hx Hy. apply ins_sep0; auto. apply in_app_iff in Hy. apply in_app_iff.
      destruct Hy as [|Hy]; auto. right. eapply Permutation_in; [apply qsort_perm|]; auto.
    - intros x Hx. apply ins_inside0. eapply Permutation_in; [apply qsort_perm|]; auto. }
  unfold global_insertion_matrix.
  rewrite nth_error_app2, Nat.sub_diag by lia. cbn [nth_error].
  assert (Eres : map (fun a : nat * list Qc => (length (snd a) - fst a - 1)%nat) (pre ++ (p, old) :: post)
     = map n_basis pre ++ n :: map n_basis post) by (rewrite map_app; reflexivity).
  rewrite Eres.
  assert (Lpre : length pre = length (map n_basis pre)) by now rewrite map_length.
  assert (Enk : nth (length pre) (map n_basis pre ++ n :: map n_basis post) 0%nat = n).
  { rewrite Lpre, app_nth2, Nat.sub_diag by lia. reflexivity. }
  rewrite Enk.
  set (res := map n_basis pre ++ n :: map n_basis post).
  assert (Lks : length (qsort ks) = length ks) by apply (Permutation_length (qsort_perm ks)).
  set (n' := (n + length ks)%nat). rewrite Lks. fold n'.
  assert (Eset : set_nth res (length pre) n' = map n_basis pre ++ n' :: map n_basis post).
  { unfold res. rewrite Lpre. apply set_nth_app. }
  rewrite Eset. set (res' := map n_basis pre ++ n' :: map n_basis post).
  rewrite fold_left_mul_prodn.
  set (A := prodn (map n_basis pre)). set (B := prodn (map n_basis post)).
  assert (Er : prodn res = (A * (n * B))%nat) by (unfold res; rewrite prodn_app; reflexivity).
  assert (Er' : prodn res' = (A * (n' * B))%nat) by (unfold res'; rewrite prodn_app; reflexivity).
  assert (Enew : (prodn res / n * n')%nat = prodn res').
  { rewrite Er, Er'. replace (A * (n * B))%nat with (A * B * n)%nat by lia.
    rewrite Nat.div_mul by lia. lia. }
  rewrite Enew.
  assert (Hpos' : Forall (fun r => (0 < r)%nat) res').
  { unfold res'. apply Forall_app in Hpos. destruct Hpos as [P1 P2].
    inversion P2; subst. apply Forall_app. split; [now apply Forall_map|].
    constructor; [unfold n'; lia|now apply Forall_map]. }
  assert (HA : (0 < A)%nat).
  { unfold A. apply prodn_pos. apply Forall_app in Hpos'. apply Hpos'. }
  destruct (merge_loop_spec old (qsort ks) (length old + length ks) 0 0)
    as (new0 & reads & Em & Pm & Sm); auto using qsort_sorted; try lia.
  { intros x Hx. eapply ins_inside_nth; eauto. }
  { now apply nd_sorted. }
  rewrite Em. cbn [skipn] in Pm.
  assert (Pm' : Permutation new0 (old ++ ks)).
  { etransitivity; [exact Pm|]. apply Permutation_app_head, qsort_perm. }
  destruct (insertion_matrix_spec tol p n old ks new0 I Sm Pm')
    as (rows & mus & mu & Ei & Hrl & Hrows).
  fold n' in Hrl, Hrows.
  rewrite Ei. eexists. split; [reflexivity|]. cbn [gm_buffer gm_kv gm_entries gm_new].
  split; [reflexivity|].
  cbn [gm_old].
  split.
  { destruct (ins_refines tol p n old ks new0 I Sm Pm') as (phi & RF & _).
    assert (Hdig : forall r, (r < prodn res')%nat -> valid_digits res' (digits res' r))
      by (intros; now apply digits_valid).
    assert (Hj : forall r, (r < prodn res')%nat -> (nth (length pre) (digits res' r) 0 < n')%nat).
    { intros r Hr. specialize (Hdig r Hr). unfold res' in *. unfold valid_digits in Hdig.
      apply Forall2_app_inv_l in Hdig. destruct Hdig as (i1 & i2 & V1 & V2 & ->).
      inversion V2; subst. rewrite app_nth2 by (rewrite <- (Forall2_len _ _ _ V1); lia).
      rewrite <- (Forall2_len _ _ _ V1), <- Lpre, Nat.sub_diag. cbn. auto. }
    split.
    - intros r c v Hin. apply in_flat_map in Hin. destruct Hin as (r0 & Hr0 & Hin).
      apply in_map_iff in Hin. destruct Hin as (c0 & E & Hc0). injection E as -> <- <-.
      apply in_seq in Hr0. apply in_seq in Hc0. unfold global_to_local in *.
      assert (Hr : (r < prodn res')%nat) by lia. specialize (Hj r Hr).
      set (j := nth (length pre) (digits res' r) 0%nat) in *.
      destruct (Hrows j Hj) as (Emu & M1 & M2 & C & D & _ & Hrow).
      rewrite Emu, Nat2Z.id in Hc0. split; auto. split.
      + specialize (Hdig r Hr). unfold res' in Hdig |- *. unfold valid_digits in Hdig.
        apply Forall2_app_inv_l in Hdig. destruct Hdig as (i1 & i2 & V1 & V2 & ->).
        inversion V2; subst.
        assert (Li1 : length i1 = length pre) by (rewrite <- (Forall2_len _ _ _ V1); auto).
        rewrite <- Li1, set_nth_app.
        assert (V : valid_digits res (i1 ++ c0 :: l')).
        { unfold res. apply Forall2_app; auto. constructor; auto. lia. }
        rewrite local_to_global_undigits by (now apply valid_length).
        now apply undigits_lt.
      + rewrite Hrow by lia. apply (alpha_nonneg (kn old) (kn new0) phi mu j);
          [eapply ins_U; eauto|eapply ins_T; eauto|exact RF| |lia].
        intros j' Hj'. destruct (Hrows j' ltac:(lia)) as (_ & _ & _ & G1 & G2 & _). auto.
    - intros r Hr. rewrite <- qsum_filter_if.
      rewrite (qsum_rows _ (fun e => snd e) (fun e => fst (fst e))); auto.
      2:{ intros j0 e He. apply in_map_iff in He. destruct He as (c & <- & _). reflexivity. }
      rewrite map_map. unfold global_to_local. cbn [snd]. specialize (Hj r Hr).
      set (j := nth (length pre) (digits res' r) 0%nat) in *.
      destruct (Hrows j Hj) as (Emu & M1 & M2 & C & D & _ & Hrow).
      rewrite Emu, Nat2Z.id.
      rewrite <- (blossom_sum (kn old) (mu j) (args (kn new0) j p) n);
        [|eapply ins_U; eauto|qlra|rewrite length_args; lia|lia].
      replace (p + 1)%nat with (S p) by lia.
      replace n with ((mu j - p) + (S p + (n - (mu j + 1))))%nat at 1 by lia.
      rewrite !seq_app, !map_app, !qsum_app.
      rewrite (qsum_zero _ (seq 0 (mu j - p))).
      2:{ intros c Hc. apply in_seq in Hc.
          rewrite blossom_left by (rewrite length_args; lia). reflexivity. }
      rewrite (qsum_zero _ (seq (0 + (mu j - p) + S p) _)).
      2:{ intros c Hc. apply in_seq in Hc. rewrite blossom_right by lia. reflexivity. }
      rewrite Qcplus_0_l, Qcplus_0_r. apply qsum_ext. intros c Hc. apply in_seq in Hc.
      apply Hrow. lia. }
  intros new Pn Hn.
  assert (new0 = new) as ->.
  { apply sorted_perm_eq; auto; [now apply nd_sorted|]. now rewrite Pm', Pn. }
  split; [reflexivity|].
  set (entries := flat_map _ _).
  pose proof (ins_new_kv tol p n old ks new I Sm Pm') as Kn. fold n' in Kn.
  assert (Ln : length new = (n' + p + 1)%nat) by apply Kn.
  assert (Enb : n_basis (p, new) = n') by (unfold n_basis; cbn; lia).
  cbn zeta. cbn [bs_axes bs_cps].
  split.
  { split.
    - cbn [bs_axes]. apply Forall_app in HF. destruct HF as [F1 F2]. inversion F2; subst.
      apply Forall_app. split; auto. constructor; auto. unfold axis_wf. now rewrite Enb.
    - unfold bs_res. cbn [bs_cps bs_axes]. rewrite map_app. cbn [map]. rewrite Enb.
      fold res'. unfold apply_entries. rewrite map_length, seq_length.
      symmetry. apply fold_right_mul_prodn. }
  intros us Hus. unfold bs_in_domain in *. cbn [bs_axes] in *.
  apply Forall2_app_inv_l in Hus. destruct Hus as (u1 & u2' & D1 & D2 & ->).
  inversion D2 as [|? u ? u2 Du D2']; subst. clear D2. cbn [fst snd] in Du.
  change (n_basis (p, old)) with n in Du.
  split.
  { apply Forall2_app; auto. constructor; auto. cbn [fst snd]. rewrite Enb.
    apply (ins_domain tol p n old ks); auto. }
  intros d Hd. unfold bs_value. cbn [bs_axes bs_cps].
  pose proof (Forall2_len _ _ _ D1) as L1. pose proof (Forall2_len _ _ _ D2') as L2.
  rewrite !axes_basis_app by auto.
  change (axes_basis ((p, new) :: post) (u :: u2))
    with (axis_basis (p, new) u :: axes_basis post u2).
  change (axes_basis ((p, old) :: post) (u :: u2))
    with (axis_basis (p, old) u :: axes_basis post u2).
  unfold axis_basis. cbn [fst snd]. rewrite Enb. change (n_basis (p, old)) with n.
  rewrite !tensor_axis.
  assert (Llen : length (axes_basis pre u1) = length pre).
  { unfold axes_basis. rewrite map_length, combine_length. lia. }
  rewrite Llen.
  set (W := axes_basis pre u1 ++ axes_basis post u2).
  assert (HW : map fst W = map n_basis pre ++ map n_basis post).
  { unfold W. rewrite map_app, !axes_basis_fst by lia. reflexivity. }
  unfold bs_res. cbn [bs_axes]. rewrite !map_app. cbn [map]. rewrite Enb.
  change (n_basis (p, old)) with n. fold res res'.
  set (k := length pre) in *.
  set (ins := fun (i : nat) (ix : list nat) => firstn k ix ++ i :: skipn k ix).
  (* new control points *)
  assert (Hcp : forall j ix, (j < n')%nat -> valid_digits (map n_basis pre ++ map n_basis post) ix ->
     net res' (apply_entries entries (prodn res') dim cps) d (ins j ix) =
     qsum (map (fun c => nth c (nth j rows []) 0 * net res cps d (ins c ix)) (seq 0 n))).
  { intros j ix Hj V. unfold valid_digits in V. apply Forall2_app_inv_l in V.
    destruct V as (i1 & i2 & V1 & V2 & ->).
    assert (Li1 : length i1 = k) by (rewrite <- (Forall2_len _ _ _ V1), map_length; auto).
    assert (Li2 : length i2 = length (map n_basis post)) by (rewrite <- (Forall2_len _ _ _ V2); auto).
    unfold ins. destruct (firstn_skipn_insert k i1 i2 Li1) as [-> ->].
    unfold net.
    assert (Vj : valid_digits res' (i1 ++ j :: i2)).
    { unfold res'. apply Forall2_app; auto. }
    rewrite (flat_id_undigits res') by (now apply valid_length).
    set (r := undigits res' (i1 ++ j :: i2)).
    assert (Hr : (r < prodn res')%nat) by now apply undigits_lt.
    unfold apply_entries. rewrite nth_map_seq by exact Hr. rewrite nth_map_seq by exact Hd.
    unfold entries.
    rewrite (qsum_rows _ (fun e => snd e * nth d (nth (snd (fst e)) cps []) 0) (fun e => fst (fst e)));
      auto.
    2:{ intros j0 e He. apply in_map_iff in He. destruct He as (c & <- & _). reflexivity. }
    unfold global_to_local. rewrite map_map. cbn [fst snd].
    assert (Edig : digits res' r = i1 ++ j :: i2) by (apply digits_undigits; auto).
    rewrite Edig.
    assert (Enj : nth k (i1 ++ j :: i2) 0%nat = j).
    { rewrite app_nth2 by lia. replace (k - length i1)%nat with 0%nat by lia. reflexivity. }
    rewrite Enj. destruct (Hrows j Hj) as (Emu & M1 & M2 & _ & _ & _ & Hrow).
    rewrite Emu, Nat2Z.id.
    transitivity (qsum (map (fun c => nth c (nth j rows []) 0 * net res cps d (i1 ++ c :: i2))
                            (seq (mu j - p) (p + 1)))).
    { apply qsum_ext. intros c Hc. f_equal. unfold net. f_equal. f_equal.
      rewrite <- Li1, set_nth_app.
      assert (Lx : length (i1 ++ c :: i2) = length res).
      { unfold res. rewrite !app_length. cbn. rewrite <- Lpre. lia. }
      rewrite local_to_global_undigits, flat_id_undigits; auto. }
    replace (p + 1)%nat with (S p) by lia.
    replace n with ((mu j - p) + (S p + (n - (mu j + 1))))%nat at 1 by lia.
    rewrite !seq_app, !map_app, !qsum_app.
    rewrite (qsum_zero _ (seq 0 (mu j - p))).
    2:{ intros c Hc. apply in_seq in Hc. rewrite Hrow by lia.
        rewrite blossom_left by (rewrite length_args; lia). ring. }
    rewrite (qsum_zero _ (seq (0 + (mu j - p) + S p) _)).
    2:{ intros c Hc. apply in_seq in Hc. rewrite Hrow by lia.
        rewrite blossom_right by lia. ring. }
    rewrite Qcplus_0_l, Qcplus_0_r. reflexivity. }
  transitivity (qsum (map (fun j => bspline_basis new p n' u j *
      qsum (map (fun c => nth c (nth j rows []) 0 * tensor W (fun ix => net res cps d (ins c ix))) (seq 0 n)))
      (seq 0 n'))).
  { apply qsum_ext. intros j Hj. apply in_seq in Hj. f_equal.
    transitivity (tensor W (fun ix => qsum (map (fun c => nth c (nth j rows []) 0 *
        net res cps d (ins c ix)) (seq 0 n)))).
    - apply tensor_ext_c. rewrite HW. intros ix V. apply Hcp; auto. lia.
    - rewrite tensor_qsum. apply qsum_ext. intros c _. apply tensor_mul_l. }
  transitivity (qsum (map (fun c => qsum (map (fun j => nth c (nth j rows []) 0 *
      bspline_basis new p n' u j) (seq 0 n')) * tensor W (fun ix => net res cps d (ins c ix))) (seq 0 n))).
  { transitivity (qsum (map (fun j => qsum (map (fun c => nth c (nth j rows []) 0 *
      bspline_basis new p n' u j * tensor W (fun ix => net res cps d (ins c ix))) (seq 0 n))) (seq 0 n'))).
    - apply qsum_ext. intros j _. rewrite <- qsum_map_mul_l. apply qsum_ext. intros; ring.
    - rewrite qsum_swap. apply qsum_ext. intros c _. rewrite <- qsum_map_mul_r. reflexivity. }
  apply qsum_ext. intros c Hc. apply in_seq in Hc. f_equal.
  eapply ins_basis; eauto. lia.
Qed.

(** Reads of the new knots buffer. *)
Lemma merge_reads old new : forall fuel i j l reads,
  fuel = (length old - i + (length new - j))%nat ->
  (i < length old)%nat -> (j <= length new)%nat ->
  (forall x, In x new -> x < nth (length old - 1) old 0) ->
  merge_loop fuel i j old new = Some (l, reads) -> In (length new) reads.
Proof.
  induction fuel as [|fuel IH]; intros i j l reads Hf Hi Hj Hlt E; [lia|].
  cbn [merge_loop] in E. rewrite (nth_error_nth' old 0 Hi) in E.
  destruct (Nat.leb_spec (length new) j) as [L|L].
  - assert (j = length new) as -> by lia. rewrite Bool.orb_true_r in E. cbn [fst snd] in E.
    destruct (merge_loop fuel (S i) _ old new) as [[l' r']|]; [|discriminate].
    injection E as <- <-. now left.
  - rewrite Bool.orb_false_r in E.
    assert (Hin : In (nth j new 0) new) by (apply nth_In; lia).
    rewrite (nth_error_nth' new 0 L) in E.
    destruct (qltb_spec (nth i old 0) (nth j new 0)) as [Q|Q]; cbn [fst snd] in E.
    + assert (S i < length old)%nat.
      { destruct (Nat.eq_dec i (length old - 1)) as [->|]; [|lia].
        apply Hlt in Hin. exfalso. qlra. }
      destruct (merge_loop fuel (S i) j old new) as [[l' r']|] eqn:E'; [|discriminate].
      injection E as <- <-. right. eapply IH; [| | |exact Hlt|exact E']; lia.
    + destruct (merge_loop fuel i (S j) old new) as [[l' r']|] eqn:E'; [|discriminate].
      injection E as <- <-. right. eapply IH; [| | |exact Hlt|exact E']; lia.
Qed.

Lemma global_reads tol axes k ks g p old :
  global_insertion_matrix tol axes k ks = Some g -> nth_error axes k = Some (p, old) ->
  old <> [] -> (forall x, In x ks -> x < nth (length old - 1) old 0) ->
  In (length ks) (gm_reads g).
Proof.
  unfold global_insertion_matrix. intros E Ek Ho Hlt. rewrite Ek in E.
  pose proof (Permutation_length (qsort_perm ks)) as Lks.
  destruct (merge_loop _ 0 0 old (qsort ks)) as [[new reads]|] eqn:Em; [|discriminate].
  destruct (insertion_matrix tol old new p) as [[rows mus]|]; [|discriminate].
  injection E as <-. cbn [gm_reads]. rewrite <- Lks.
  eapply merge_reads; [| | | |exact Em]; try lia.
  - destruct old; [easy|cbn; lia].
  - intros x Hx. apply Hlt. eapply Permutation_in; [apply qsort_perm|]; auto.
Qed.

Lemma global_buffer tol axes k ks g :
  global_insertion_matrix tol axes k ks = Some g -> gm_buffer g = qsort ks.
Proof.
  unfold global_insertion_matrix. destruct (nth_error axes k) as [[p old]|]; [|discriminate].
  destruct (merge_loop _ 0 0 old (qsort ks)) as [[new reads]|]; [|discriminate].
  destruct (insertion_matrix tol old new p) as [[rows mus]|]; [|discriminate].
  intros E. now injection E as <-.
Qed.

(** Statement with an axis number. *)
Lemma insertion_geometry tol axes cps k p old ks dim :
  bs_wf (BSpline axes cps) -> nth_error axes k = Some (p, old) ->
  insertable tol p (length old - p - 1) old ks ->
  exists g,
    global_insertion_matrix tol axes k ks = Some g /\
    convex_rows (gm_entries g) (gm_new g) (length cps) /\
    forall new, Permutation new (old ++ ks) -> non_decreasing new ->
    let s := BSpline axes cps in
    let s' := BSpline (firstn k axes ++ (p, new) :: skipn (S k) axes)
                      (apply_entries (gm_entries g) (gm_new g) dim cps) in
    bs_wf s' /\
    forall us, bs_in_domain s us ->
      bs_in_domain s' us /\
      forall d, (d < dim)%nat -> bs_value s' us d = bs_value s us d.
Proof.
  intros W Ek I.
  assert (Hk : (k < length axes)%nat) by (apply nth_error_Some; congruence).
  pose proof (nth_error_split axes k Ek) as (pre & post & -> & <-).
  assert (E1 : firstn (length pre) (pre ++ (p, old) :: post) = pre).
  { rewrite firstn_app, Nat.sub_diag, firstn_all, firstn_O, app_nil_r. reflexivity. }
  assert (E2 : skipn (S (length pre)) (pre ++ (p, old) :: post) = post).
  { rewrite skipn_app, skipn_all2 by lia.
    replace (S (length pre) - length pre)%nat with 1%nat by lia. reflexivity. }
  rewrite E1, E2.
  assert (Hpos : Forall (fun a => (0 < n_basis a)%nat) (pre ++ (p, old) :: post)).
  { destruct W as [HF _]. cbn [bs_axes] in HF. eapply Forall_impl; [|exact HF].
    intros [q kv] (A & B & C). cbn [fst snd] in *.
    destruct (n_basis (q, kv)) eqn:E; [|lia]. exfalso.
    pose proof (kn_mono kv B 0%nat q ltac:(lia)). qlra. }
  destruct (insertion_preserves_values tol pre p old post ks cps dim W Hpos I)
    as (g & Eg & _ & Hc & H).
  exists g. split; auto. split.
  - assert (gm_old g = length cps) as <-; auto.
    destruct W as [_ L]. cbn [bs_cps] in L. rewrite L.
    unfold global_insertion_matrix in Eg.
    rewrite Ek in Eg.
    destruct (merge_loop _ 0 0 old (qsort ks)) as [[new reads]|]; [|discriminate].
    destruct (insertion_matrix tol old new p) as [[rows mus]|]; [|discriminate].
    injection Eg as <-. cbn [gm_old]. rewrite fold_left_mul_prodn. symmetry.
    unfold bs_res. cbn [bs_axes]. rewrite (fold_right_mul_prodn (map n_basis (pre ++ (p, old) :: post))).
    reflexivity.
  - intros new Pn Hn. destruct (H new Pn Hn) as [_ G]. exact G.
Qed.
