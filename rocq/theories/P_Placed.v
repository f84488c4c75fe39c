(** Points that determine a spline; Greville abscissae are such points. *)
From Coq Require Import List Arith Lia Bool QArith Qcanon Sorted.
From Verif Require Import Base BaseQc S_Spline S_Value S_Knots S_Exact S_Deriv S_Integrate M_Knots P_Basis P_Spline P_Bezier P_Pieces P_Deriv P_Fit P_KnotGlobal P_Greville P_Integrate P_View P_Poly P_Exact P_Zeros P_SplineSpace P_Smooth P_AxisClass.
Import ListNotations.
Local Open Scope list_scope.
Local Open Scope nat_scope.

(** Strictly increasing points in the domain, each inside the support of the basis
    function of the same number. *)
Definition placed (us : list Qc) (ms : list nat) (q : nat) (g : nat -> Qc) : Prop :=
  let N := start (mk ms) (length us - 1) in
  (forall i, S i < N -> (g i < g (S i))%Qc) /\ (forall i, i < N -> (zk us 0 <= g i)%Qc /\ (g i <= zk us (length us - 1))%Qc) /\
  (forall i c, i < N -> 0 < c -> c < length us - 1 -> start (mk ms) c <= i -> (zk us c < g i)%Qc) /\
  (forall i c, i < N -> 0 < c -> c < length us - 1 -> i + S q < start (mk ms) (S c) -> (g i < zk us c)%Qc).

Section Unisolvent.
Variables (a : paxis) (us : list Qc) (ms : list nat).
Hypothesis W : axis_form a us ms.
Hypothesis mult : Forall (fun k => k <= ax_degree a + 1) ms.
Variable g : nat -> Qc.
Hypothesis Pl : placed us ms (ax_degree a) g.
Lemma class_vanish f : inclass (zk us) (length us - 1) (fun c => ax_degree a + 1 - mk ms c) (ax_degree a) f -> (forall i, i < ax_n a -> f (g i) = 0%Qc) ->
  forall x, (zk us 0 <= x)%Qc -> (x <= zk us (length us - 1))%Qc -> f x = 0%Qc.
Proof.
  intros (P & A & B & C) V x X0 X1. pose proof W as (SS & L & L2 & M0 & M1 & F & E). pose proof (form_count a us ms W) as Cn. pose proof (form_up a us ms W) as Up.
  destruct Pl as (G1 & G2 & G3 & G4). destruct (home_exists (zk us) (mk ms) (ax_degree a) (length us - 1) ltac:(lia) Up ltac:(unfold mk; lia) ltac:(unfold mk; rewrite L; lia) x X0 X1) as (c & Hc). rewrite (C x c Hc).
  apply (vanishing (zk us) (mk ms) (ax_degree a) (length us - 1)) with (g := g); auto; try lia.
  - intros k Hk. assert (k < length ms) as Kl by lia. pose proof (proj1 (Forall_forall _ ms) mult _ (nth_In ms 0 Kl)) as X. cbv beta in X. unfold mk. lia.
  - unfold mk. lia.
  - unfold mk. rewrite L. lia.
  - intros i Hi. now apply G2.
  - intros i Hi. now apply G2.
  - intros k H1 H2. replace (S (ax_degree a) - mk ms k) with (ax_degree a + 1 - mk ms k) by lia. now apply B.
  - intros i k Hi Hk. rewrite <- (C _ _ Hk). apply V. lia.
  - apply Hc.
Qed.
Lemma unisolvent c : (forall j, j < ax_n a -> qsum (map (fun i => c i * ax_fun a (g j) i)%Qc (seq 0 (ax_n a))) = 0%Qc) -> forall i, i < ax_n a -> c i = 0%Qc.
Proof.
  intros V. pose proof W as (SS & L & L2 & M0 & M1 & F & E). pose proof (form_count a us ms W) as Cn. pose proof (form_up a us ms W) as Up.
  assert (forall x, (zk us 0 <= x)%Qc -> (x <= zk us (length us - 1))%Qc -> qsum (map (fun i => c i * ax_fun a x i)%Qc (seq 0 (ax_n a))) = 0%Qc) as Z.
  { apply (class_vanish (fun x => qsum (map (fun i => c i * ax_fun a x i)%Qc (seq 0 (ax_n a))))); auto. apply inclass_sum. intros i Hi. apply in_seq in Hi. apply inclass_scale. apply (axis_inclass a us ms); auto. lia. }
  assert (forall c0 s U p, S c0 < length us -> (forall x, (zk us c0 < x)%Qc -> (x < zk us (S c0))%Qc -> forall i, i < ax_n a -> ax_fun a x i = basis U s p i x) ->
    forall u, qsum (map (fun i => c i * basis U s p i u)%Qc (seq 0 (ax_n a))) = 0%Qc) as All.
  { intros c0 s U p Hc0 Eq u.
    assert (pol p (fun u => qsum (map (fun i => c i * basis U s p i u)%Qc (seq 0 (ax_n a))))) as (d & Ld & Ed) by (apply pol_sum; intros i _; apply pol_scale, basis_pol).
    rewrite Ed. destruct (nonzero_dec d) as [N|N]; [|apply N]. exfalso.
    destruct (nonzero_point d (zk us c0) (zk us (S c0))) as (w & W1 & W2 & W3); [apply Up; lia|exact N|]. apply W3. rewrite <- Ed, <- (Z w).
    - apply qsum_ext. intros i Hi. apply in_seq in Hi. now rewrite (Eq w W1 W2 i) by lia.
    - eapply Qcle_trans; [|apply Qclt_le_weak, W1]. apply (knots_le (zk us) 0 (length us - 1)); auto; lia.
    - eapply Qcle_trans; [apply Qclt_le_weak, W2|]. apply (knots_le (zk us) 0 (length us - 1)); auto; lia. }
  intros i Hi. destruct a as [p|p kv].
  - cbn [ax_n] in *. set (U := fun k => if k <=? p then 0%Qc else 1%Qc). assert (mono U) as MU. { intros j k Hjk. unfold U. destruct (Nat.leb_spec j p), (Nat.leb_spec k p); try lia; try apply Qcle_refl; discriminate. }
    assert (U p < U (S p))%Qc as Lt. { unfold U. destruct (Nat.leb_spec p p), (Nat.leb_spec (S p) p); try lia; reflexivity. }
    apply (pieces_independent U p MU Lt c (p + 1) p); auto; try lia. apply (All 0 p U p); [rewrite E; cbn; lia|]. intros x _ _ k Hk. cbn [ax_fun].
    rewrite (local_bernstein U p p 0%Qc 1%Qc p k x).
    + destruct (Nat.leb_spec (p - p) k), (Nat.leb_spec k p); try lia. cbn [andb]. f_equal; [lia|]. field. discriminate.
    + intros j _ Hj. unfold U. destruct (Nat.leb_spec j p); auto; lia.
    + intros j Hj _. unfold U. destruct (Nat.leb_spec j p); auto; lia.
    + reflexivity. + lia. + lia.
  - assert (exists c0, S c0 < length us /\ i <= sp ms c0 /\ sp ms c0 <= i + p) as (c0 & C1 & C2 & C3).
    { assert (forall k, k <= length us - 1 -> i < start (mk ms) k -> exists c0, c0 < k /\ i <= sp ms c0 /\ sp ms c0 <= i + p) as G.
      { induction k as [|k IH]; intros Hk H; [cbn in H; lia|]. destruct (le_lt_dec (start (mk ms) k) i) as [Le|Lt].
        - exists k. rewrite start_S in H. unfold sp. rewrite start_S. assert (k < length ms) as Kl by lia. pose proof (proj1 (Forall_forall _ ms) mult _ (nth_In ms 0 Kl)) as X. cbn [ax_degree] in X. unfold mk in *. lia.
        - destruct (IH ltac:(lia) Lt) as (c0 & X1 & X2 & X3). exists c0. auto. }
      destruct (G (length us - 1)) as (c0 & X1 & X2 & X3); [lia|now rewrite Cn|]. exists c0. split; [lia|auto]. }
    apply (pieces_independent (kn kv) (sp ms c0) (U_mono p kv us ms W) (sp_lt p kv us ms W c0 ltac:(lia)) c (ax_n (KnotAxis p kv)) p); auto.
    apply (All c0 (sp ms c0) (kn kv) p C1). intros x X1 X2 k _. cbn [ax_fun]. unfold bspline_basis. rewrite (home_span p kv us ms W x c0); auto.
    repeat split; auto; try lia; now apply Qclt_le_weak.
Qed.
End Unisolvent.

(** * Greville abscissae *)
Lemma mid_lt x y : (x < y)%Qc -> (x < qc 1 2 * (x + y))%Qc /\ (qc 1 2 * (x + y) < y)%Qc.
Proof.
  intros H. assert (E : (qc 1 2 + qc 1 2 = 1)%Qc) by (apply Qc_is_canon; reflexivity). assert (P : (0 < qc 1 2)%Qc) by reflexivity.
  set (h := qc 1 2) in *. clearbody h. assert (0 < h * (y - x))%Qc as Z by (apply Qc_mul_pos; auto; qlra).
  assert (x = (h + h) * x)%Qc as Ex by (rewrite E; ring). assert (y = (h + h) * y)%Qc as Ey by (rewrite E; ring).
  split; [rewrite Ex at 1|rewrite Ey at 2]; clear - Z; [replace (h * (x + y))%Qc with ((h + h) * x + h * (y - x))%Qc by ring|replace ((h + h) * y)%Qc with (h * (x + y) + h * (y - x))%Qc by ring]; qlra.
Qed.
Section Grev.
Variables (q : nat) (kv us : list Qc) (ms : list nat).
Hypothesis W : axis_form (KnotAxis q kv) us ms.
Hypothesis qpos : 0 < q.
Hypothesis mult : Forall (fun k => k <= q + 1) ms.
Let T := kn kv.
Let m := length us - 1.
Let N := start (mk ms) m.
Let z := zk us.
Let st := start (mk ms).
Lemma T_low c i : c <= m -> st c <= i -> (z c <= T i)%Qc.
Proof.
  intros Hc Hi. pose proof W as (_ & L & L2 & _). unfold z. rewrite <- (kn_group q kv us ms W c (st c)).
  - apply (U_mono q kv us ms W). exact Hi. - unfold m in *. lia. - unfold st. lia.
  - unfold st. rewrite start_S. pose proof (mk_pos q kv us ms W c ltac:(unfold m in *; lia)). lia.
Qed.
Lemma T_high c i : c <= m -> i < st (S c) -> (T i <= z c)%Qc.
Proof.
  intros Hc Hi. pose proof W as (_ & L & L2 & _). pose proof (mk_pos q kv us ms W c ltac:(unfold m in *; lia)) as Mp. unfold z. rewrite <- (kn_group q kv us ms W c (st (S c) - 1)).
  - apply (U_mono q kv us ms W). lia. - unfold m in *. lia. - unfold st in *. rewrite start_S in *. lia. - unfold st in *. lia.
Qed.
Lemma z_lt c : S c <= m -> (z c < z (S c))%Qc.
Proof. intros H. apply (form_up _ us ms W c); unfold m in *; lia. Qed.
Lemma T_after c i : S c <= m -> st (S c) <= i -> (z c < T i)%Qc.
Proof. intros Hc Hi. eapply Qclt_le_trans; [apply z_lt; auto|now apply T_low]. Qed.
Lemma T_before c i : 0 < c -> c <= m -> i < st c -> (T i < z c)%Qc.
Proof. intros Hc Hm Hi. destruct c as [|c]; [lia|]. eapply Qcle_lt_trans; [apply (T_high c i); auto; lia|apply z_lt; auto]. Qed.
Lemma group_of k : k <= S m -> forall i, i < st k -> exists c, c < k /\ st c <= i /\ i < st (S c).
Proof.
  induction k as [|k IH]; intros Hk i Hi; [cbn in Hi; lia|]. destruct (le_lt_dec (st k) i) as [L|L]; [exists k; auto|]. destruct (IH ltac:(lia) i L) as (c & A & B & C). exists c. auto.
Qed.
Lemma mult_le c : c <= m -> mk ms c <= q + 1.
Proof. intros H. pose proof W as (_ & L & L2 & _). rewrite Forall_forall in mult. apply mult, nth_In. unfold m in *. lia. Qed.
Lemma m_pos : 0 < m.
Proof. pose proof W as (_ & L & L2 & _). unfold m. lia. Qed.
Lemma st_1 : st 1 = q + 1.
Proof. pose proof W as (_ & L & L2 & M0 & _). unfold st. rewrite start_S. change (start (mk ms) 0) with 0. exact M0. Qed.
Lemma st_end : st (S m) = N + (q + 1).
Proof. pose proof W as (_ & L & L2 & M0 & M1 & _). unfold st. rewrite start_S. unfold N. f_equal. unfold mk, m. rewrite L. exact M1. Qed.
Lemma st_le c c' : c <= c' -> st c <= st c'.
Proof. apply start_le. Qed.
Lemma N_ge : q + 1 <= N.
Proof. rewrite <- st_1. apply st_le. apply m_pos. Qed.

Definition dup i := T (i + 1) = T (i + q + 1).
Lemma dup_group i : i + 1 < N -> dup i -> exists c, 0 < c /\ c < m /\ st c = i + 1 /\ st (S c) = i + q + 2.
Proof.
  intros Hi D. destruct (group_of (S m) (le_n _) (i + 1)) as (c & C1 & C2 & C3); [rewrite st_end; lia|].
  assert (c < m) as Cm. { destruct (Nat.eq_dec c m) as [->|]; [|lia]. unfold st in C2. fold N in C2. lia. }
  assert (i + q + 1 < st (S c)) as C4. { destruct (le_lt_dec (st (S c)) (i + q + 1)) as [L|L]; auto. exfalso. pose proof (T_after c _ ltac:(lia) L) as X. unfold dup in D. rewrite <- D in X. pose proof (T_high c (i + 1) ltac:(lia) C3) as Y. apply Qcle_not_lt in Y. contradiction. }
  pose proof (mult_le c ltac:(lia)) as Mc. assert (st (S c) = st c + mk ms c) as E by apply start_S.
  exists c. split; [|split; [auto|lia]]. destruct c as [|c]; [|lia]. change (st 0) with 0 in *. lia.
Qed.
Lemma dup_next i : i + 1 < N -> dup i -> i + 2 < N /\ ~ dup (i + 1).
Proof.
  intros Hi D. destruct (dup_group i Hi D) as (c & C1 & C2 & C3 & C4). assert (i + q + 2 <= N) as X by (rewrite <- C4; apply st_le; lia). split; [lia|]. intros D'.
  destruct (dup_group (i + 1) ltac:(lia) D') as (c' & E1 & E2 & E3 & E4). assert (st (S c') = i + 1 + q + 2) by auto. destruct (le_lt_dec c' c) as [L|L].
  - pose proof (st_le (S c') (S c) ltac:(lia)). lia. - pose proof (st_le (S c) c' L). lia.
Qed.
Lemma dup_dec i : {dup i} + {~ dup i}.
Proof. apply Qc_eq_dec. Qed.

Definition rho i := mean (map (fun k => T (i + 1 + k)) (seq 0 q)).
Lemma rho_sum i : (inj q * rho i = qsum (map (fun k => T (i + 1 + k)%nat) (seq 0 q)))%Qc.
Proof. unfold rho, mean. rewrite map_length, seq_length. field. now apply inj_neq0. Qed.
Lemma inj_q : (0 < inj q)%Qc.
Proof. now apply inj_pos. Qed.
Lemma scaled_le x y : (inj q * x <= inj q * y)%Qc -> (x <= y)%Qc.
Proof.
  intros H. destruct (Qclt_le_dec y x) as [L|L]; auto. exfalso. apply (Qcle_not_lt _ _ H). rewrite !(Qcmult_comm (inj q)). apply Qcmult_lt_compat_r; auto. apply inj_q.
Qed.
Lemma scaled_lt x y : (inj q * x < inj q * y)%Qc -> (x < y)%Qc.
Proof.
  intros H. destruct (Qclt_le_dec x y) as [L|L]; auto. exfalso. apply (Qclt_not_le _ _ H). rewrite !(Qcmult_comm (inj q)). apply Qcmult_le_compat_r; auto. apply Qclt_le_weak, inj_q.
Qed.
Lemma rho_ge i x : (x <= T (i + 1))%Qc -> (x <= rho i)%Qc.
Proof.
  intros H. apply scaled_le. rewrite rho_sum. replace (inj q * x)%Qc with (qsum (map (fun _ : nat => x) (seq 0 q))) by (now rewrite qsum_const, seq_length).
  apply P_Fit.qsum_le. intros k _. eapply Qcle_trans; [exact H|]. apply (U_mono q kv us ms W). lia.
Qed.
Lemma rho_gt i x : (x <= T (i + 1))%Qc -> (x < T (i + q))%Qc -> (x < rho i)%Qc.
Proof.
  intros H H'. apply scaled_lt. rewrite rho_sum. replace (inj q * x)%Qc with (qsum (map (fun _ : nat => x) (seq 0 q))) by (now rewrite qsum_const, seq_length).
  apply (qsum_lt _ _ _ (q - 1)); [apply in_seq; lia| |].
  - intros k _. eapply Qcle_trans; [exact H|]. apply (U_mono q kv us ms W). lia. - cbv beta. now replace (i + 1 + (q - 1)) with (i + q) by lia.
Qed.
Lemma rho_le i x : (T (i + q) <= x)%Qc -> (rho i <= x)%Qc.
Proof.
  intros H. apply scaled_le. rewrite rho_sum. replace (inj q * x)%Qc with (qsum (map (fun _ : nat => x) (seq 0 q))) by (now rewrite qsum_const, seq_length).
  apply P_Fit.qsum_le. intros k Hk. apply in_seq in Hk. eapply Qcle_trans; [|exact H]. apply (U_mono q kv us ms W). lia.
Qed.
Lemma rho_lt i x : (T (i + q) <= x)%Qc -> (T (i + 1) < x)%Qc -> (rho i < x)%Qc.
Proof.
  intros H H'. apply scaled_lt. rewrite rho_sum. replace (inj q * x)%Qc with (qsum (map (fun _ : nat => x) (seq 0 q))) by (now rewrite qsum_const, seq_length).
  apply (qsum_lt _ _ _ 0); [apply in_seq; lia| |].
  - intros k Hk. apply in_seq in Hk. eapply Qcle_trans; [|exact H]. apply (U_mono q kv us ms W). lia. - cbv beta. now replace (i + 1 + 0) with (i + 1) by lia.
Qed.
Lemma rho_step i : (inj q * (rho (i + 1) - rho i) = T (i + q + 1) - T (i + 1))%Qc.
Proof.
  replace (inj q * (rho (i + 1)%nat - rho i))%Qc with (inj q * rho (i + 1)%nat - inj q * rho i)%Qc by ring. rewrite !rho_sum. destruct q as [|q']; [lia|].
  rewrite (qsum_seq_S _ q'), (qsum_seq_0 (fun k => T (i + 1 + k)%nat) q'). replace (i + 1 + 1 + q') with (i + S q' + 1) by lia. rewrite Nat.add_0_r.
  assert (qsum (map (fun k => T (i + 1 + 1 + k)%nat) (seq 0 q')) = qsum (map (fun k => T (i + 1 + S k)%nat) (seq 0 q'))) as ->; [|ring].
  apply qsum_ext. intros k _. f_equal. lia.
Qed.
Lemma rho_dup i : dup i -> rho (i + 1) = rho i.
Proof.
  intros D. pose proof (rho_step i) as E. unfold dup in D. rewrite D in E. replace (T (i + q + 1) - T (i + q + 1))%Qc with 0%Qc in E by ring.
  apply Qcmult_integral in E as [E|E]; [exfalso; pose proof inj_q as X; rewrite E in X; discriminate X|]. clear - E. qlra.
Qed.
Variable tol : Qc.
Hypothesis tpos : (0 < tol)%Qc.
Hypothesis gaps : forall c, S c <= m -> (inj q * tol <= z (S c) - z c)%Qc.
Lemma rho_far i : i + 1 < N -> ~ dup i -> (tol <= rho (i + 1) - rho i)%Qc.
Proof.
  intros Hi D. apply scaled_le. rewrite rho_step.
  destruct (group_of (S m) (le_n _) (i + 1)) as (c & C1 & C2 & C3); [rewrite st_end; lia|].
  assert (c < m) as Cm. { destruct (Nat.eq_dec c m) as [->|]; [|lia]. unfold st in C2. fold N in C2. lia. }
  assert (st (S c) <= i + q + 1) as L.
  { destruct (le_lt_dec (st (S c)) (i + q + 1)) as [L|L]; auto. exfalso. apply D. unfold dup, T. rewrite !(kn_group q kv us ms W c); auto; unfold st in *; unfold m in *; pose proof W as (_ & L' & _); lia. }
  eapply Qcle_trans; [apply (gaps c); lia|]. pose proof (T_low (S c) (i + q + 1) ltac:(lia) L) as X. pose proof (T_high c (i + 1) ltac:(lia) C3) as Y. clear - X Y. qlra.
Qed.
Lemma rho_inc i : i + 1 < N -> ~ dup i -> (rho i < rho (i + 1))%Qc.
Proof. intros Hi D. pose proof (rho_far i Hi D) as X. clear - X tpos. qlra. Qed.
Definition low k x := forall c, 0 < c -> c < m -> st c <= k -> (z c < x)%Qc.
Definition high k x := forall c, 0 < c -> c < m -> k + S q < st (S c) -> (x < z c)%Qc.
Lemma rho_low k : k < N -> (k = 0 \/ ~ dup (k - 1)) -> low k (rho k).
Proof.
  intros Hk D c C1 C2 C3. apply rho_gt; [apply T_low; lia|]. destruct (le_lt_dec (st (S c)) (k + q)) as [L|L]; [apply T_after; lia|]. exfalso.
  pose proof (mult_le c ltac:(lia)) as Mc. assert (st c = k) as E by (unfold st in *; rewrite start_S in L; lia). destruct D as [->|D].
  - pose proof (st_le 1 c ltac:(lia)). rewrite st_1 in H. lia.
  - assert (0 < k) by (pose proof (st_le 1 c ltac:(lia)); rewrite st_1 in H; lia). apply D. unfold dup, T. rewrite !(kn_group q kv us ms W c); auto; unfold st in *; unfold m in *; pose proof W as (_ & L' & _); lia.
Qed.
Lemma rho_low_weak k c : 0 < c -> c < m -> st c <= k + 1 -> (z c <= rho k)%Qc.
Proof. intros C1 C2 C3. apply rho_ge, T_low; lia. Qed.
Lemma rho_high k : k + 1 < N -> ~ dup k -> high k (rho k).
Proof.
  intros Hk D c C1 C2 C3. apply rho_lt; [apply T_high; lia|]. destruct (le_lt_dec (st c) (k + 1)) as [L|L]; [|apply T_before; lia]. exfalso. apply D.
  unfold dup, T. rewrite !(kn_group q kv us ms W c); auto; unfold st in *; unfold m in *; pose proof W as (_ & L' & _); lia.
Qed.
Lemma rho_high_weak k c : 0 < c -> c < m -> k + q < st (S c) -> (rho k <= z c)%Qc.
Proof. intros C1 C2 C3. apply rho_le, T_high; lia. Qed.
Lemma rho_bounds k : k < N -> (z 0 <= rho k)%Qc /\ (rho k <= z m)%Qc.
Proof. intros H. split; [apply rho_ge, T_low; [lia|cbn; lia]|]. apply rho_le, T_high; [lia|]. rewrite st_end. lia. Qed.

(** The state of the filter before it looks at number [j]. *)
Definition state j (g : list Qc) : Prop :=
  length g = N /\ (forall k, j <= k -> k < N -> nth k g 0%Qc = rho k) /\
  (dup (j - 1) -> nth (j - 1) g 0%Qc = rho (j - 1)) /\ (~ dup (j - 1) -> j < N -> (nth (j - 1) g 0 < rho j)%Qc) /\
  (forall k, k < j -> ~ dup k -> (rho k <= nth k g 0)%Qc) /\
  (forall k, k < j -> low k (nth k g 0%Qc)) /\
  (forall k, k < j -> (S k < j \/ ~ dup k) -> k + 1 < N -> high k (nth k g 0%Qc)) /\
  (forall k, S k < j -> (nth k g 0 < nth (S k) g 0)%Qc) /\
  (forall k, k < j -> (z 0 <= nth k g 0)%Qc /\ (nth k g 0 <= z m)%Qc).
Lemma filter_state n : forall j g, 2 <= j -> j + n <= N - 1 \/ n = 0 -> state j g -> state (j + n) (greville_filter tol g (rho (j - 1)) (seq j n)).
Proof.
  induction n as [|n IH]; intros j g Hj Hn St; cbn [seq greville_filter]; [now rewrite Nat.add_0_r|]. destruct Hn as [Hn|Hn]; [|lia]. replace (j + S n) with (S j + n) by lia.
  destruct St as (L & Raw & Pd & Pn & Ge & Lo & Hi & In & Bo). pose proof (Raw j (le_n j) ltac:(lia)) as Rj. pose proof (Raw (j + 1) ltac:(lia) ltac:(lia)) as Rj1. rewrite Rj.
  destruct (dup_dec (j - 1)) as [D|D].
  - pose proof (rho_dup _ D) as Ed. replace (j - 1 + 1) with j in Ed by lia.
    destruct (qltb_spec (qabs (rho (j - 1) - rho j)) tol) as [_|X].
    2:{ exfalso. apply X. rewrite Ed. replace (rho (j - 1)%nat - rho (j - 1)%nat)%Qc with 0%Qc by ring. exact tpos. }
    destruct (dup_next (j - 1) ltac:(lia) D) as [N2 D1]. replace (j - 1 + 1) with j in D1 by lia.
    assert (~ dup (j - 2)) as D2. { intros D2. destruct (dup_next (j - 2) ltac:(lia) D2) as [_ X]. apply X. now replace (j - 2 + 1) with (j - 1) by lia. }
    specialize (Pd D). set (g1 := set_nth g (j - 1) (qc 1 2 * (nth (j - 2) g 0 + nth (j - 1) g 0))%Qc). set (g2 := set_nth g1 j (qc 1 2 * (nth j g1 0 + nth (j + 1) g1 0))%Qc).
    set (v1 := (qc 1 2 * (nth (j - 2) g 0 + rho (j - 1)))%Qc). set (v2 := (qc 1 2 * (rho j + rho (j + 1)))%Qc).
    assert (L1 : length g1 = N) by (unfold g1; now rewrite set_nth_length). assert (L2 : length g2 = N) by (unfold g2; now rewrite set_nth_length).
    assert (E1 : forall i, nth i g1 0%Qc = if i =? j - 1 then v1 else nth i g 0%Qc). { intros i. unfold g1, v1. rewrite set_nth_nth by lia. now rewrite Pd. }
    assert (E2 : forall i, nth i g2 0%Qc = if i =? j then v2 else if i =? j - 1 then v1 else nth i g 0%Qc).
    { intros i. unfold g2. rewrite set_nth_nth by lia. rewrite !E1. destruct (Nat.eqb_spec j (j - 1)); [lia|]. destruct (Nat.eqb_spec (j + 1) (j - 1)); [lia|]. rewrite Rj, Rj1. reflexivity. }
    assert (nth (j - 2) g 0 < rho (j - 1))%Qc as Lt1. { rewrite <- Pd. replace (j - 1) with (S (j - 2)) by lia. apply In. lia. }
    pose proof (rho_inc j ltac:(lia) D1) as Lt2. destruct (mid_lt _ _ Lt1) as [A1 A2]. destruct (mid_lt _ _ Lt2) as [B1 B2]. fold v1 in A1, A2. fold v2 in B1, B2.
    replace (rho (j - 1)) with (rho (S j - 1)) by (replace (S j - 1) with j by lia; exact Ed). apply IH; [lia|lia|].
    split; [exact L2|]. split; [|split; [|split; [|split; [|split; [|split; [|split]]]]]].
    + intros k K1 K2. rewrite E2. destruct (Nat.eqb_spec k j); [lia|]. destruct (Nat.eqb_spec k (j - 1)); [lia|]. apply Raw; lia.
    + replace (S j - 1) with j by lia. intros X. contradiction.
    + replace (S j - 1) with j by lia. intros _ K. rewrite E2, Nat.eqb_refl. now replace (S j) with (j + 1) by lia.
    + intros k K1 K2. rewrite E2. destruct (Nat.eqb_spec k j) as [->|]; [now apply Qclt_le_weak|]. destruct (Nat.eqb_spec k (j - 1)) as [->|]; [contradiction|]. apply Ge; auto; lia.
    + intros k K1. rewrite E2. destruct (Nat.eqb_spec k j) as [->|]; [|destruct (Nat.eqb_spec k (j - 1)) as [->|]; [|apply Lo; lia]].
      * intros c C1 C2 C3. eapply Qcle_lt_trans; [|exact B1]. apply rho_low_weak; auto; lia.
      * intros c C1 C2 C3. eapply Qcle_lt_trans; [|exact A1]. eapply Qcle_trans; [apply (rho_low_weak (j - 2) c); auto; lia|]. apply Ge; auto; lia.
    + intros k K1 K2 K3. rewrite E2. destruct (Nat.eqb_spec k j) as [->|]; [|destruct (Nat.eqb_spec k (j - 1)) as [->|]; [|apply Hi; auto; lia]].
      * intros c C1 C2 C3. eapply Qclt_le_trans; [exact B2|]. apply rho_high_weak; auto; lia.
      * intros c C1 C2 C3. eapply Qclt_le_trans; [exact A2|]. apply rho_high_weak; auto; lia.
    + intros k K1. rewrite !E2. destruct (Nat.eqb_spec k j) as [|]; [lia|]. destruct (Nat.eqb_spec k (j - 1)) as [->|].
      * replace (S (j - 1)) with j by lia. rewrite Nat.eqb_refl. rewrite <- Ed in A2. eapply Qclt_trans; eauto.
      * destruct (Nat.eqb_spec (S k) j) as [|]; [lia|]. destruct (Nat.eqb_spec (S k) (j - 1)) as [E|]; [now replace k with (j - 2) by lia|]. apply In. lia.
    + intros k K1. rewrite E2. pose proof (rho_bounds j ltac:(lia)) as [R1 R2]. pose proof (rho_bounds (j + 1) ltac:(lia)) as [R3 R4]. pose proof (rho_bounds (j - 1) ltac:(lia)) as [R5 R6].
      destruct (Nat.eqb_spec k j) as [->|]; [|destruct (Nat.eqb_spec k (j - 1)) as [->|]; [|apply Bo; lia]].
      * split; apply Qclt_le_weak; [exact (Qcle_lt_trans _ _ _ R1 B1)|exact (Qclt_le_trans _ _ _ B2 R4)].
      * destruct (Bo (j - 2) ltac:(lia)) as [R7 _]. split; apply Qclt_le_weak; [exact (Qcle_lt_trans _ _ _ R7 A1)|exact (Qclt_le_trans _ _ _ A2 R6)].
  - pose proof (rho_far (j - 1) ltac:(lia) D) as Fa. replace (j - 1 + 1) with j in Fa by lia.
    destruct (qltb_spec (qabs (rho (j - 1) - rho j)) tol) as [X|_].
    { exfalso. replace (rho (j - 1)%nat - rho j)%Qc with (- (rho j - rho (j - 1)%nat))%Qc in X by ring. rewrite qabs_opp, qabs_pos_eq in X by (clear - Fa tpos; qlra). apply (Qclt_not_le _ _ X Fa). }
    replace (rho j) with (rho (S j - 1)) by (f_equal; lia). apply IH; [lia|lia|]. specialize (Pn D ltac:(lia)).
    split; [exact L|]. split; [|split; [|split; [|split; [|split; [|split; [|split]]]]]].
    + intros k K1 K2. apply Raw; lia.
    + replace (S j - 1) with j by lia. auto.
    + replace (S j - 1) with j by lia. intros X K. rewrite Rj. replace (S j) with (j + 1) by lia. apply rho_inc; auto; lia.
    + intros k K1 K2. destruct (Nat.eq_dec k j) as [->|]; [rewrite Rj; apply Qcle_refl|]. apply Ge; auto; lia.
    + intros k K1. destruct (Nat.eq_dec k j) as [->|]; [rewrite Rj; apply rho_low; [lia|now right]|]. apply Lo; lia.
    + intros k K1 K2 K3. destruct (Nat.eq_dec k j) as [->|]; [rewrite Rj; apply rho_high; [lia|destruct K2; [lia|auto]]|]. apply Hi; auto; try lia.
      destruct (Nat.eq_dec k (j - 1)) as [->|]; [now right|left; lia].
    + intros k K1. destruct (Nat.eq_dec (S k) j) as [E|]; [|apply In; lia]. rewrite E, Rj. now replace k with (j - 1) by lia.
    + intros k K1. destruct (Nat.eq_dec k j) as [->|]; [rewrite Rj; apply rho_bounds; lia|]. apply Bo; lia.
Qed.
Lemma greville_placed_knots : exists gl, greville (KnotAxis q kv) tol = Some gl /\ length gl = N /\ placed us ms q (fun i => nth i gl 0%Qc).
Proof.
  unfold greville. cbn [ax_degree]. destruct (Nat.eqb_spec q 0); [lia|]. set (g := greville_raw (KnotAxis q kv)). destruct (qltb_spec 0 tol) as [_|X]; [|contradiction].
  pose proof N_ge as NG. assert (length kv - q - 1 = N) as Cn by (symmetry; exact (form_count _ _ _ W)).
  assert (length g = N) as Lg by (unfold g; cbn [greville_raw]; now rewrite map_length, seq_length).
  assert (forall k, k < N -> nth k g 0%Qc = rho k) as Raw by (intros k Hk; unfold g; rewrite greville_raw_mean by lia; reflexivity).
  assert (~ dup 0) as D0. { intros D. destruct (dup_group 0 ltac:(lia) D) as (c & C1 & C2 & C3 & C4). pose proof (st_le 1 c ltac:(lia)). rewrite st_1 in H. lia. }
  assert (state 2 g) as S2.
  { split; [exact Lg|]. cbn [Nat.sub]. split; [|split; [|split; [|split; [|split; [|split; [|split]]]]]].
    - intros k _ Hk. auto.
    - intros _. apply Raw. lia.
    - intros D Hn. rewrite Raw by lia. apply (rho_inc 1); auto; lia.
    - intros k Hk _. rewrite Raw by lia. apply Qcle_refl.
    - intros k Hk c C1 C2 C3. exfalso. pose proof (st_le 1 c ltac:(lia)). rewrite st_1 in H. lia.
    - intros k Hk Hd Hn. rewrite Raw by lia. apply rho_high; auto. destruct Hd as [Hd|Hd]; auto. now replace k with 0 by lia.
    - intros k Hk. replace k with 0 by lia. rewrite !Raw by lia. apply (rho_inc 0); auto; lia.
    - intros k Hk. rewrite Raw by lia. apply rho_bounds. lia. }
  pose proof (filter_state (N - 3) 2 g (le_n 2) ltac:(lia) S2) as St. cbn [Nat.sub] in St. rewrite Lg, (Raw 1) by lia.
  set (gl := greville_filter tol g (rho 1) (seq 2 (N - 3))) in *. exists gl. split; [reflexivity|]. set (j := 2 + (N - 3)) in *.
  destruct St as (L & Raw' & Pd & Pn & Ge & Lo & Hi & In & Bo). split; [exact L|].
  assert (j = N \/ (j = N - 1 /\ ~ dup (j - 1))) as Hj.
  { destruct (Nat.eq_dec N 2) as [E|E]; [left; unfold j; lia|]. right. assert (j = N - 1) as -> by (unfold j; lia). split; auto. intros D. destruct (dup_next (N - 1 - 1) ltac:(lia) D). lia. }
  assert (forall k, k + 1 < N -> ~ dup k \/ S k < j) as Fin. { intros k Hk. destruct (Nat.eq_dec (S k) j) as [E|]; [|right; lia]. left. destruct Hj as [Hj|[Hj D]]; [lia|]. now replace k with (j - 1) by lia. }
  split; [|split; [|split]]; fold m N z st.
  - intros i H. destruct (le_lt_dec j (S i)) as [K|K]; [|apply In; auto]. destruct Hj as [Hj|[Hj D]]; [lia|]. rewrite (Raw' (S i)) by lia. replace (S i) with j by lia. replace i with (j - 1) by lia. apply Pn; auto; lia.
  - intros i H. destruct (le_lt_dec j i) as [K|K]; [|apply Bo; auto]. rewrite Raw' by lia. now apply rho_bounds.
  - intros i c H C1 C2 C3. destruct (le_lt_dec j i) as [K|K]; [|now apply (Lo i K c)]. rewrite Raw' by lia. apply rho_low; auto. right. destruct Hj as [Hj|[Hj D]]; [lia|]. now replace i with j by lia.
  - intros i c H C1 C2 C3. assert (i + 1 < N) as Hi'. { pose proof (st_le (S c) m ltac:(lia)) as X. unfold st in *. fold N in X. lia. }
    destruct (le_lt_dec j i) as [K|K]; [destruct Hj as [Hj|[Hj D]]; lia|]. apply (Hi i K); auto. destruct (Fin i Hi'); auto.
Qed.
End Grev.
Lemma greville_placed a us ms tol : axis_form a us ms -> 0 < ax_degree a -> Forall (fun k => k <= ax_degree a + 1) ms -> (0 < tol)%Qc ->
  (forall c, S c < length us -> (inj (ax_degree a) * tol <= zk us (S c) - zk us c)%Qc) \/ (exists p, a = BezierAxis p) ->
  exists gl, greville a tol = Some gl /\ length gl = ax_n a /\ placed us ms (ax_degree a) (fun i => nth i gl 0%Qc).
Proof.
  intros W Hq Hm Ht Hg. destruct a as [p|q kv].
  - cbn [ax_degree ax_n] in *. destruct (bezier_greville p tol Hq) as (gl & E & L & _ & _ & _ & V). exists gl. split; auto. split; auto.
    pose proof (form_count _ _ _ W) as Cn. cbn [ax_n] in Cn. destruct W as (_ & Lu & _ & _ & _ & _ & Eu). pose proof (inj_pos p Hq) as Pp.
    unfold placed. rewrite Cn. subst us. cbn [length Nat.sub] in *. unfold zk. cbn [nth]. split; [|split; [|split]].
    + intros i Hi. rewrite !V by lia. unfold Qcdiv. apply Qcmult_lt_compat_r; [now apply Qc_inv_pos|]. apply inj_lt. lia.
    + intros i Hi. rewrite !V by lia. split.
      * apply Qc_div_nonneg; apply inj_nonneg.
      * replace 1%Qc with (inj p / inj p)%Qc by (field; now apply inj_neq0). unfold Qcdiv. apply Qcmult_le_compat_r; [apply inj_le; lia|]. apply Qclt_le_weak. now apply Qc_inv_pos.
    + intros; lia. + intros; lia.
  - destruct Hg as [Hg|(p & X)]; [|discriminate X]. cbn [ax_degree] in *. destruct (greville_placed_knots q kv us ms W Hq Hm tol Ht) as (gl & E & L & Pl).
    + intros c Hc. apply Hg. pose proof W as (_ & Lu & L2 & _). lia.
    + exists gl. split; auto. split; auto. rewrite L. apply (form_count _ _ _ W).
Qed.
