(** Proofs about fitting: reproduction of splines; surfaces. *)
From Coq Require Import List Arith ZArith Lia Bool QArith Qcanon Qround.
From Verif Require Import Base BaseQc S_Grid S_Spline P_Spline S_Value P_Value M_Core S_Core P_Core S_Solve P_Solve
  M_Create S_Create P_Create P_Shapes M_Fit S_Fit P_Fit P_FitLs.
Import ListNotations.
Local Open Scope list_scope.
Local Open Scope nat_scope.

(** * Shape of the fitted control points *)
Lemma fitted_shaped O scipy s pts us ends dim : solving O -> fit_ready s us ends -> shaped (length us) dim pts ->
  exists cps, fitted_points O scipy s pts us ends = Some cps /\ shaped (length (sp_cps s)) dim cps.
Proof.
  intros S0 (Sh & D & Hn & He) Sp. pose proof (dim_pts s pts us dim Sp D Hn) as Ed. pose proof (proj1 Sp) as LP.
  unfold fitted_points. rewrite LP, Nat.eqb_refl. cbn [negb]. rewrite Ed.
  assert (shaped (length (sp_cps s)) dim (solved O scipy dim (length (sp_cps s)) (coefficient_matrix s us) pts)) as Pl.
  { apply (solved_normal O S0 scipy (length us) (length (sp_cps s)) dim (coefficient_matrix s us) pts Hn (matrix_shaped s us) Sp
      (determined_independent s us Sh D)). }
  destruct ends; cbn [andb]; [|eauto]. destruct (Nat.eqb_spec (length (sp_cps s)) (length us)) as [E|E]; cbn [negb andb]; [eauto|].
  destruct (He eq_refl) as [?|[R T]]; [contradiction|].
  assert (length (hd [] pts) = dim /\ length (last pts []) = dim) as [R1 R2].
  { pose proof (ready_two s us R) as T2. pose proof (proj2 Sp) as F. rewrite Forall_forall in F.
    replace (hd [] pts) with (nth 0 pts []) by now destruct pts. rewrite last_nth. split; apply F, nth_In; lia. }
  destruct (Nat.eqb_spec (length (sp_cps s)) 2) as [E2|E2].
  - eexists. split; [reflexivity|]. rewrite E2. split; [reflexivity|]. constructor; [auto|constructor; auto].
  - destruct (Nat.ltb_spec (length (sp_cps s)) 2); [lia|]. eexists. split; [reflexivity|].
    assert (3 <= length (sp_cps s)) as T3 by lia.
    match goal with |- context [solved O scipy dim _ _ ?r] =>
      pose proof (solved_normal O S0 scipy (length us - 2) (length (sp_cps s) - 2) dim (map (@inner Qc) (inner (coefficient_matrix s us)))
      r ltac:(lia) (inner_shaped _ _ _ (matrix_shaped s us)) ltac:(eapply rhs_shaped; eauto) ltac:(eapply inner_independent; eauto)) as [[L F] _] end.
    split; [cbn [length]; rewrite app_length; cbn [length]; lia|].
    constructor; auto. apply Forall_app. split; auto.
Qed.

(** * Reproduction *)
Lemma error_zero dim s us pts : length pts = length us -> (squared_error dim s us pts <= 0)%Qc -> interpolates dim s us pts.
Proof.
  intros LP Q k d Hk Hd. rewrite error_eq in Q.
  set (f := fun d => qsum (map (fun k => sq (sp_value s [nth k us 0%Qc] d - entry pts k d)) (seq 0 (length pts)))) in Q.
  assert (forall d, (0 <= f d)%Qc) as P by (intros; apply qsum_nonneg; intros; apply sq_nonneg).
  assert (f d <= 0)%Qc as Q'.
  { apply Qcle_trans with (2 := Q). clear - P Hd. clearbody f.
    assert (In d (seq 0 dim)) as Hi by (apply in_seq; lia). revert Hi. generalize (seq 0 dim). clear Hd. intros ds.
    induction ds as [|x ds IH]; intros Hi; [easy|]. cbn. change (fold_right Qcplus 0%Qc) with qsum.
    destruct Hi as [->|Hi].
    - pose proof (qsum_nonneg f ds ltac:(auto)) as R. clear IH. pose proof (P d). clear P. qlra.
    - specialize (IH Hi). pose proof (P x). clear P. qlra. }
  pose proof (qsum_sq_zero (fun k => sp_value s [nth k us 0%Qc] d - entry pts k d)%Qc _ Q' k) as Z'.
  rewrite LP in Z'. specialize (Z' ltac:(apply in_seq; lia)). cbv beta in Z'. unfold entry in Z'.
  set (v := sp_value s [nth k us 0%Qc] d) in *. clearbody v.
  replace v with (v - nth d (nth k pts []) 0 + nth d (nth k pts []) 0)%Qc by ring. rewrite Z'. ring.
Qed.
Lemma error_none dim s us pts : length pts = length us -> interpolates dim s us pts -> squared_error dim s us pts = 0%Qc.
Proof.
  intros LP I. unfold squared_error. apply qsum_zero. intros k Hk. apply in_seq in Hk. apply qsum_zero. intros d Hd. apply in_seq in Hd.
  rewrite I by lia. cbv zeta. ring.
Qed.

Lemma determined_unique s us s1 s2 dim pts : curve_shape s -> determined s us -> same_space s s1 -> same_space s s2 ->
  shaped (length (sp_cps s)) dim (sp_cps s1) -> shaped (length (sp_cps s)) dim (sp_cps s2) ->
  interpolates dim s1 us pts -> interpolates dim s2 us pts -> sp_cps s1 = sp_cps s2.
Proof.
  intros Sh D S1 S2 [L1 F1] [L2 F2] I1 I2. pose proof (determined_independent s us Sh D) as Ind. rewrite Forall_forall in F1, F2.
  apply nth_ext with (d := []) (d' := []); [congruence|]. intros i Hi.
  assert (length (nth i (sp_cps s1) []) = dim) as R1 by (apply F1, nth_In; lia).
  assert (length (nth i (sp_cps s2) []) = dim) as R2 by (apply F2, nth_In; lia).
  apply nth_ext with (d := 0%Qc) (d' := 0%Qc); [congruence|]. intros d Hd.
  specialize (Ind (fun i => entry (sp_cps s1) i d - entry (sp_cps s2) i d)%Qc).
  assert ((entry (sp_cps s1) i d - entry (sp_cps s2) i d)%Qc = 0%Qc) as Z.
  { apply Ind; [|lia]. intros k Hk.
    rewrite (qsum_ext _ (fun i => entry (coefficient_matrix s us) k i * entry (sp_cps s1) i d - entry (coefficient_matrix s us) k i * entry (sp_cps s2) i d)%Qc) by (intros; ring).
    rewrite qsum_map_sub. pose proof (I1 k d Hk ltac:(lia)) as E1. pose proof (I2 k d Hk ltac:(lia)) as E2.
    rewrite same_space_value with (s := s) in E1, E2 by auto. unfold ap in E1, E2. rewrite E1, E2. ring. }
  unfold entry in Z. set (x := nth d (nth i (sp_cps s1) []) 0%Qc) in *. set (y := nth d (nth i (sp_cps s2) []) 0%Qc) in *.
  replace x with (x - y + y)%Qc by ring. rewrite Z. ring.
Qed.

Lemma line_reproduced O scipy s pts us ends dim s' : solving O -> fit_ready s us ends -> shaped (length us) dim pts ->
  same_space s s' -> shaped (length (sp_cps s)) dim (sp_cps s') -> interpolates dim s' us pts ->
  fitted_points O scipy s pts us ends = Some (sp_cps s').
Proof.
  intros S0 Rd Sp Ss Sc I. destruct (fitted_shaped O scipy s pts us ends dim S0 Rd Sp) as (cps & E & Sx). rewrite E. f_equal.
  pose proof Rd as (Sh & D & Hn & He). pose proof (proj1 Sp) as LP.
  assert (fit_spline O scipy s pts us ends = Fitted (with_cps s cps) (residual O s pts us cps)) as Fs.
  { unfold fit_spline. rewrite E. destruct Sh as (a & -> & _). reflexivity. }
  assert (squared_error dim (with_cps s cps) us pts <= squared_error dim s' us pts)%Qc as Q.
  { destruct ends.
    - destruct (He eq_refl) as [En|[R T]].
      + destruct (fit_best O scipy s pts us true dim S0 Sh Sp D Hn ltac:(right; congruence)) as (s2 & r & E2 & _ & B & _).
        rewrite Fs in E2. injection E2 as <- _. auto.
      + destruct (fit_ends O scipy s pts us dim S0 R Sp D T) as (s2 & r & E2 & _ & _ & B & _).
        rewrite Fs in E2. injection E2 as <- _. apply B; auto. intros d Hd. pose proof (ready_two s us R).
        replace (hd 0%Qc us) with (nth 0 us 0%Qc) by now destruct us. replace (hd [] pts) with (nth 0 pts []) by now destruct pts.
        rewrite !last_nth, LP. split; apply I; auto; lia.
    - destruct (fit_best O scipy s pts us false dim S0 Sh Sp D Hn ltac:(now left)) as (s2 & r & E2 & _ & B & _).
      rewrite Fs in E2. injection E2 as <- _. auto. }
  rewrite (error_none dim s' us pts LP I) in Q. apply error_zero in Q; auto.
  apply (determined_unique s us (with_cps s cps) s' dim pts); auto. split; [reflexivity|]. split; [reflexivity|]. apply Sx.
Qed.

(** * Line after line *)
Lemma fitted_cps O scipy s cps pts us ends : length cps = length (sp_cps s) ->
  fitted_points O scipy (with_cps s cps) pts us ends = fitted_points O scipy s pts us ends.
Proof.
  intros L. unfold fitted_points. assert (coefficient_matrix (with_cps s cps) us = coefficient_matrix s us) as ->.
  { unfold coefficient_matrix. cbn [with_cps sp_cps]. rewrite L. reflexivity. }
  cbn [with_cps sp_cps]. now rewrite L.
Qed.
Lemma fit_lines_eq O scipy us ends (F G : nat -> mat) js : forall s, length (sp_axes s) = 1 ->
  (forall j, In j js -> fitted_points O scipy s (F j) us ends = Some (G j) /\ length (G j) = length (sp_cps s)) ->
  fit_lines O scipy s (map F js) us ends = Some (map G js).
Proof.
  induction js as [|j js IH]; intros s La H; [reflexivity|]. cbn [fit_lines map]. unfold fit_spline. rewrite La. cbn [Nat.eqb negb].
  destruct (H j ltac:(now left)) as [E L]. rewrite E. cbn [with_cps sp_cps].
  rewrite (IH (with_cps s (G j))); [reflexivity|exact La|]. intros j' Hj'. rewrite fitted_cps by auto.
  cbn [with_cps sp_cps]. rewrite L. apply H. now right.
Qed.
Lemma nth_concat {A} n (ls : list (list A)) i j d : Forall (fun l => length l = n) ls -> i < n ->
  nth (i + n * j) (concat ls) d = nth i (nth j ls []) d.
Proof.
  intros F. revert j. induction F as [|l ls L F IH]; intros j Hi.
  - cbn. destruct (i + n * j), j, i; reflexivity.
  - cbn [concat]. destruct j as [|j].
    + rewrite Nat.mul_0_r, Nat.add_0_r. now rewrite app_nth1 by lia.
    + rewrite app_nth2 by lia. rewrite L. replace (i + n * S j - n) with (i + n * j) by lia. now apply IH.
Qed.
Lemma concat_uniform_length {A} n (ls : list (list A)) : Forall (fun l => length l = n) ls -> length (concat ls) = n * length ls.
Proof. induction 1 as [|l ls L F IH]; cbn; [lia|]. rewrite app_length. lia. Qed.

(** * Values of surfaces *)
Lemma functional_two a b u v f : functional [a; b] [u; v] f =
  qsum (map (fun j => (ax_fun b v j * qsum (map (fun i => ax_fun a u i * f (i + ax_n a * j)%nat)%Qc (seq 0 (ax_n a))))%Qc) (seq 0 (ax_n b))).
Proof.
  etransitivity; [exact (functional_snoc [a] b [u] v f eq_refl)|]. apply qsum_ext. intros j _. f_equal. rewrite functional_axis.
  apply qsum_ext. intros i _. f_equal. f_equal. cbn. lia.
Qed.
Lemma surface_value s su sv a b u v cps d : sp_axes s = [a; b] -> directions s su sv ->
  sp_value (with_cps s cps) [u; v] d =
  qsum (map (fun j => (basis_value sv v j * qsum (map (fun i => basis_value su u i * entry cps (i + ax_n a * j) d)%Qc (seq 0 (ax_n a))))%Qc)
    (seq 0 (ax_n b))).
Proof.
  intros Ea (a' & b' & Ea' & Eu & Ev & _ & _ & W). rewrite Ea in Ea'. injection Ea' as <- <-.
  rewrite sp_value_functional. cbn [with_cps sp_axes sp_cps sp_weights]. unfold basis_value. rewrite Eu, Ev, Ea.
  destruct (sp_weights s) as [w|], (sp_weights su) as [wu|], (sp_weights sv) as [wv|]; try contradiction.
  - destruct W as (q & Hq & W). rewrite !functional_two.
    set (Wu := qsum (map (fun j => (nth j wu 0 * ax_fun a u j)%Qc) (seq 0 (ax_n a)))).
    set (Wv := qsum (map (fun j => (nth j wv 0 * ax_fun b v j)%Qc) (seq 0 (ax_n b)))).
    assert (forall f : nat -> Qc,
      (qsum (map (fun j => ax_fun b v j * qsum (map (fun i => ax_fun a u i * (nth (i + ax_n a * j) w 0 * f (i + ax_n a * j)%nat)) (seq 0 (ax_n a)))) (seq 0 (ax_n b))) * q)%Qc =
      qsum (map (fun j => (nth j wv 0 * ax_fun b v j) * qsum (map (fun i => (nth i wu 0 * ax_fun a u i) * f (i + ax_n a * j)%nat) (seq 0 (ax_n a))))%Qc (seq 0 (ax_n b)))) as K.
    { intros f. rewrite <- qsum_map_mul_r. apply qsum_ext. intros j Hj. apply in_seq in Hj.
      rewrite <- !qsum_map_mul_l, <- qsum_map_mul_r. apply qsum_ext. intros i Hi. apply in_seq in Hi.
      transitivity (ax_fun b v j * ax_fun a u i * f (i + ax_n a * j)%nat * (nth (i + ax_n a * j) w 0 * q))%Qc; [ring|].
      rewrite W by lia. ring. }
    assert (qsum (map (fun j => ax_fun b v j * qsum (map (fun i => ax_fun a u i * nth (i + ax_n a * j) w 0) (seq 0 (ax_n a)))) (seq 0 (ax_n b))) * q = Wu * Wv)%Qc as K1.
    { specialize (K (fun _ => 1%Qc)). etransitivity; [|etransitivity; [exact K|]].
      - f_equal. apply qsum_ext. intros j _. f_equal. apply qsum_ext. intros i _. ring.
      - rewrite (qsum_ext _ (fun j => nth j wv 0 * ax_fun b v j * Wu)%Qc).
        + rewrite qsum_map_mul_r. fold Wv. ring.
        + intros j _. f_equal. unfold Wu. apply qsum_ext. intros i _. ring. }
    specialize (K (fun g => nth d (nth g cps []) 0%Qc)).
    set (N := qsum (map (fun j => (ax_fun b v j * qsum (map (fun i => (ax_fun a u i * (nth (i + ax_n a * j) w 0 * nth d (nth (i + ax_n a * j) cps []) 0))%Qc) (seq 0 (ax_n a))))%Qc) (seq 0 (ax_n b)))) in *.
    set (M := qsum (map (fun j => (ax_fun b v j * qsum (map (fun i => (ax_fun a u i * nth (i + ax_n a * j) w 0)%Qc) (seq 0 (ax_n a))))%Qc) (seq 0 (ax_n b)))) in *.
    transitivity ((N * q) / (M * q))%Qc.
    { unfold Qcdiv. destruct (Qc_eq_dec M 0) as [->|Hm]; [rewrite Qcmult_0_l; change (/ 0)%Qc with 0%Qc; ring|]. field. auto. }
    rewrite K, K1. unfold Qcdiv at 1. rewrite <- qsum_map_mul_r. apply qsum_ext. intros j _.
    transitivity (nth j wv 0 * ax_fun b v j * / Wv * (qsum (map (fun i => nth i wu 0 * ax_fun a u i * nth d (nth (i + ax_n a * j) cps []) 0) (seq 0 (ax_n a))) * / Wu))%Qc.
    { rewrite Qcinv_mult_distr. ring. }
    unfold Qcdiv. f_equal. rewrite <- qsum_map_mul_r. apply qsum_ext. intros i _. unfold entry. ring.
  - now rewrite functional_two.
Qed.

Lemma same_space_with s cps : length cps = length (sp_cps s) -> same_space s (with_cps s cps).
Proof. intros L. split; [reflexivity|]. split; [reflexivity|exact L]. Qed.
Lemma line_value s a u cps d : sp_axes s = [a] -> sp_value (with_cps s cps) [u] d =
  qsum (map (fun i => basis_value s u i * entry cps i d)%Qc (seq 0 (ax_n a))).
Proof. intros Ea. unfold with_cps. now rewrite (curve_value s a). Qed.

Section Surface.
Variables (O : fit_oracles) (scipy : bool) (s su sv : spline) (us vs : list Qc) (ends : bool) (dim : nat) (pts : mat) (a b : paxis).
Hypothesis S0 : solving O.
Hypothesis Ea : sp_axes s = [a; b].
Hypothesis Dr : directions s su sv.
Hypothesis Ru : fit_ready su us ends.
Hypothesis Rv : fit_ready sv vs ends.
Hypothesis Sp : shaped (length us * length vs) dim pts.

Let n0 := ax_n a.
Let n1 := ax_n b.
Lemma direction_axes : sp_axes su = [a] /\ sp_axes sv = [b] /\ length (sp_cps su) = n0 /\ length (sp_cps sv) = n1.
Proof. clear - Ea Dr. destruct Dr as (a' & b' & Ea' & H1 & H2 & H3 & H4 & _). rewrite Ea in Ea'. injection Ea' as <- <-. auto. Qed.

Lemma surface_reproduced C : shaped (n0 * n1) dim C -> interpolates_grid dim (with_cps s C) us vs pts ->
  surface_points O scipy su sv (length us) (length vs) pts us vs ends = Some C.
Proof.
  intros Sc I. pose proof direction_axes as (Au & Av & Lu & Lv). unfold surface_points. rewrite Lu, Lv.
  pose proof Sp as [LP FP]. pose proof Sc as [LC FC]. rewrite Forall_forall in FP, FC.
  set (F := fun j => map (fun i => nth (i + length us * j) pts []) (seq 0 (length us))).
  set (q := fun i j d => qsum (map (fun k => basis_value sv (nth j vs 0%Qc) k * entry C (i + n0 * k) d)%Qc (seq 0 n1))).
  set (G := fun j => map (fun i => map (q i j) (seq 0 dim)) (seq 0 n0)).
  assert (forall j, length (G j) = n0) as LG by (intros; unfold G; now rewrite map_length, seq_length).
  assert (forall j, Forall (fun r => length r = dim) (G j)) as FG.
  { intros j. unfold G. apply Forall_map, Forall_forall. intros. now rewrite map_length, seq_length. }
  assert (forall i j d, i < n0 -> d < dim -> entry (G j) i d = q i j d) as EG.
  { intros i j d Hi Hd. unfold entry, G. rewrite at_map_seq by lia. now rewrite at_map_seq by lia. }
  unfold lines_u at 1. fold F. rewrite (fit_lines_eq O scipy us ends F G).
  2: { now rewrite Au. }
  2: { intros j Hj. apply in_seq in Hj. split; [|now rewrite LG].
       apply (line_reproduced O scipy su (F j) us ends dim (with_cps su (G j)) S0 Ru).
       - unfold F. split; [now rewrite map_length, seq_length|]. apply Forall_map, Forall_forall. intros i Hi. apply in_seq in Hi.
         apply FP, nth_In. rewrite LP. nia.
       - apply same_space_with. now rewrite LG.
       - cbn. split; auto. now rewrite LG.
       - intros k d Hk Hd. rewrite (line_value su a) by auto. unfold F. rewrite at_map_seq by lia. cbn [Nat.add].
         rewrite <- (I k j d) by lia. rewrite (surface_value s su sv a b) by auto. fold n0 n1.
         rewrite (qsum_ext (fun i => basis_value su (nth k us 0%Qc) i * entry (G j) i d)%Qc
           (fun i => qsum (map (fun k' => basis_value su (nth k us 0%Qc) i * (basis_value sv (nth j vs 0%Qc) k' * entry C (i + n0 * k') d))%Qc (seq 0 n1)))).
         + rewrite qsum_swap. apply qsum_ext. intros k' _. rewrite <- qsum_map_mul_l. apply qsum_ext. intros i _. ring.
         + intros i Hi. apply in_seq in Hi. rewrite EG by lia. unfold q. now rewrite qsum_map_mul_l. }
  unfold lines_v at 2.
  set (F2 := fun i => map (fun j => nth (i + n0 * j) (concat (map G (seq 0 (length vs)))) []) (seq 0 (length vs))).
  set (G2 := fun i => map (fun k => nth (i + n0 * k) C []) (seq 0 n1)).
  assert (forall i j, i < n0 -> j < length vs -> nth (i + n0 * j) (concat (map G (seq 0 (length vs)))) [] = nth i (G j) []) as NG.
  { intros i j Hi Hj. rewrite nth_concat; auto.
    - now rewrite at_map_seq by lia.
    - apply Forall_map, Forall_forall. auto. }
  assert (forall i, length (G2 i) = n1) as LG2 by (intros; unfold G2; now rewrite map_length, seq_length).
  rewrite (fit_lines_eq O scipy vs ends F2 G2).
  2: { now rewrite Av. }
  2: { intros i Hi. apply in_seq in Hi. split; [|now rewrite LG2].
       apply (line_reproduced O scipy sv (F2 i) vs ends dim (with_cps sv (G2 i)) S0 Rv).
       - unfold F2. split; [now rewrite map_length, seq_length|]. apply Forall_map, Forall_forall. intros j Hj. apply in_seq in Hj.
         rewrite NG by lia. pose proof (FG j) as R. rewrite Forall_forall in R. apply R, nth_In. rewrite LG. lia.
       - apply same_space_with. now rewrite LG2.
       - cbn. split; [now rewrite LG2|]. unfold G2. apply Forall_map, Forall_forall. intros j Hj. apply in_seq in Hj.
         apply FC, nth_In. rewrite LC. nia.
       - intros k d Hk Hd. rewrite (line_value sv b) by auto. unfold F2. rewrite at_map_seq by lia. cbn [Nat.add].
         rewrite NG by lia. change (nth d (nth i (G k) []) 0%Qc) with (entry (G k) i d). rewrite EG by lia. unfold q.
         fold n1. apply qsum_ext. intros j Hj. apply in_seq in Hj. f_equal. unfold entry, G2. now rewrite at_map_seq by lia. }
  cbn [option_map]. f_equal. unfold lines_v.
  assert (forall i j, i < n0 -> j < n1 -> nth (j + n1 * i) (concat (map G2 (seq 0 n0))) [] = nth (i + n0 * j) C []) as NG2.
  { intros i j Hi Hj. rewrite nth_concat; auto.
    - rewrite at_map_seq by lia. unfold G2. now rewrite at_map_seq by lia.
    - apply Forall_map, Forall_forall. auto. }
  set (rows := map _ (seq 0 n1)).
  assert (Forall (fun l => length l = n0) rows) as Fr.
  { unfold rows. apply Forall_map, Forall_forall. intros. now rewrite map_length, seq_length. }
  assert (length (concat rows) = n0 * n1) as Lr.
  { rewrite (concat_uniform_length n0) by auto. unfold rows. now rewrite map_length, seq_length. }
  apply nth_ext with (d := []) (d' := []); [congruence|]. rewrite Lr. intros g Hg.
  assert (n0 <> 0) as Hz by (intro Z; rewrite Z in Hg; lia).
  rewrite (Nat.div_mod g n0) by auto. rewrite Nat.add_comm.
  assert (g mod n0 < n0) as M1 by (now apply Nat.mod_upper_bound).
  assert (g / n0 < n1) as M2 by (apply Nat.div_lt_upper_bound; lia).
  rewrite nth_concat by auto. unfold rows. rewrite at_map_seq by lia. rewrite at_map_seq by lia. cbn [Nat.add].
  now apply NG2.
Qed.

(** As many control points as points in both directions: there is a surface
    through all points. *)
Lemma surface_interpolant : length us = n0 -> length vs = n1 ->
  exists C, shaped (n0 * n1) dim C /\ interpolates_grid dim (with_cps s C) us vs pts.
Proof.
  intros Eu Ev. pose proof direction_axes as (Au & Av & Lu & Lv).
  pose proof Sp as [LP FP]. rewrite Forall_forall in FP.
  pose proof Ru as (Shu & Du & Hu & _). pose proof Rv as (Shv & Dv & Hv & _).
  set (F := fun j => map (fun i => nth (i + length us * j) pts []) (seq 0 (length us))).
  set (Q := fun j => solved O scipy dim (length (sp_cps su)) (coefficient_matrix su us) (F j)).
  assert (forall j, j < length vs -> shaped (length us) dim (F j)) as SF.
  { intros j Hj. unfold F. split; [now rewrite map_length, seq_length|]. apply Forall_map, Forall_forall. intros i Hi. apply in_seq in Hi.
    apply FP, nth_In. rewrite LP. nia. }
  assert (forall j, j < length vs -> shaped n0 dim (Q j) /\ interpolates dim (with_cps su (Q j)) us (F j)) as HQ.
  { intros j Hj. split.
    - rewrite <- Lu. apply (solved_normal O S0 scipy (length us) _ dim _ (F j) Hu (matrix_shaped su us) (SF j Hj) (determined_independent su us Shu Du)).
    - intros k d Hk Hd. apply (plain_interpolates O scipy su (F j) us dim S0 Shu (SF j Hj) Du Hu (Q j) eq_refl); auto. lia. }
  set (F2 := fun i => map (fun j => nth i (Q j) []) (seq 0 (length vs))).
  set (R := fun i => solved O scipy dim (length (sp_cps sv)) (coefficient_matrix sv vs) (F2 i)).
  assert (forall i, i < n0 -> shaped (length vs) dim (F2 i)) as SF2.
  { intros i Hi. unfold F2. split; [now rewrite map_length, seq_length|]. apply Forall_map, Forall_forall. intros j Hj. apply in_seq in Hj.
    destruct (HQ j ltac:(lia)) as [[L FQ] _]. rewrite Forall_forall in FQ. apply FQ, nth_In. lia. }
  assert (forall i, i < n0 -> shaped n1 dim (R i) /\ interpolates dim (with_cps sv (R i)) vs (F2 i)) as HR.
  { intros i Hi. split.
    - rewrite <- Lv. apply (solved_normal O S0 scipy (length vs) _ dim _ (F2 i) Hv (matrix_shaped sv vs) (SF2 i Hi) (determined_independent sv vs Shv Dv)).
    - intros k d Hk Hd. apply (plain_interpolates O scipy sv (F2 i) vs dim S0 Shv (SF2 i Hi) Dv Hv (R i) eq_refl); auto. lia. }
  set (rows := map (fun j => map (fun i => nth j (R i) []) (seq 0 n0)) (seq 0 n1)).
  assert (Forall (fun l => length l = n0) rows) as Fr.
  { unfold rows. apply Forall_map, Forall_forall. intros. now rewrite map_length, seq_length. }
  exists (concat rows). split.
  - split; [rewrite (concat_uniform_length n0) by auto; unfold rows; now rewrite map_length, seq_length|].
    apply Forall_concat, Forall_forall. intros l Hl. unfold rows in Hl. apply in_map_iff in Hl as (j & <- & Hj). apply in_seq in Hj.
    apply Forall_map, Forall_forall. intros i Hi. apply in_seq in Hi. destruct (HR i ltac:(lia)) as [[L FQ] _].
    rewrite Forall_forall in FQ. apply FQ, nth_In. lia.
  - intros k l d Hk Hl Hd. rewrite (surface_value s su sv a b) by auto. fold n0 n1.
    transitivity (qsum (map (fun i => basis_value su (nth k us 0%Qc) i * entry (Q l) i d)%Qc (seq 0 n0))).
    + transitivity (qsum (map (fun i => basis_value su (nth k us 0%Qc) i * qsum (map (fun j => basis_value sv (nth l vs 0%Qc) j * entry (R i) j d) (seq 0 n1)))%Qc (seq 0 n0))).
      * rewrite (qsum_ext _ (fun j => qsum (map (fun i => basis_value su (nth k us 0%Qc) i * (basis_value sv (nth l vs 0%Qc) j * entry (R i) j d))%Qc (seq 0 n0)))).
        -- rewrite qsum_swap. apply qsum_ext. intros i _. now rewrite qsum_map_mul_l.
        -- intros j Hj. apply in_seq in Hj. rewrite <- qsum_map_mul_l. apply qsum_ext. intros i Hi. apply in_seq in Hi.
           unfold entry at 1. rewrite nth_concat by (auto; lia). unfold rows. rewrite at_map_seq by lia. rewrite at_map_seq by lia.
           unfold entry. cbn [Nat.add]. ring.
      * apply qsum_ext. intros i Hi. apply in_seq in Hi. f_equal. destruct (HR i ltac:(lia)) as [_ I].
        specialize (I l d Hl Hd). rewrite (line_value sv b) in I by auto. fold n1 in I. rewrite I. unfold F2. now rewrite at_map_seq by lia.
    + destruct (HQ l Hl) as [_ I]. specialize (I k d Hk Hd). rewrite (line_value su a) in I by auto. fold n0 in I. rewrite I.
      unfold F. now rewrite at_map_seq by lia.
Qed.
End Surface.
