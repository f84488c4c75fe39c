(** A piecewise polynomial that vanishes at suitably placed points vanishes. *)
From Coq Require Import List Arith Lia QArith Qcanon Sorted.
From Verif Require Import Base BaseRadix BaseQc S_Spline S_Exact P_Deriv P_Poly P_Zeros.
Import ListNotations.
Local Open Scope list_scope.
Local Open Scope nat_scope.

Definition start (mu : nat -> nat) (c : nat) : nat := list_sum (map mu (seq 0 c)).
Lemma start_S mu c : start mu (S c) = start mu c + mu c.
Proof. unfold start. rewrite seq_S, map_app, list_sum_app. cbn. lia. Qed.
Lemma start_le mu a b : a <= b -> start mu a <= start mu b.
Proof. induction 1; [lia|]. rewrite start_S. lia. Qed.
Lemma start_part mu a n : start mu (a + n) = start mu a + list_sum (map mu (seq a n)).
Proof. unfold start. now rewrite seq_app, map_app, list_sum_app. Qed.

Section Space.
Variable z : nat -> Qc.
Variable mu : nat -> nat.
Variables q m : nat.
Hypothesis mpos : 0 < m.
Hypothesis up : rising_knots z 0 m.
Hypothesis mult : forall c, c <= m -> mu c <= S q.
Hypothesis mult_0 : mu 0 = S q.
Hypothesis mult_m : mu m = S q.
Let r c := S q - mu c.
Variable g : nat -> Qc.
Hypothesis g_up : forall i, S i < start mu m -> (g i < g (S i))%Qc.
Hypothesis g_lo : forall i, i < start mu m -> (z 0 <= g i)%Qc.
Hypothesis g_hi : forall i, i < start mu m -> (g i <= z m)%Qc.
Hypothesis g_after : forall i c, i < start mu m -> 0 < c -> c < m -> start mu c <= i -> (z c < g i)%Qc.
Hypothesis g_before : forall i c, i < start mu m -> 0 < c -> c < m -> i + S q < start mu (S c) -> (g i < z c)%Qc.
Variable P : pieces.
Hypothesis deg : forall c, c < m -> pol q (peval (P c)).
Hypothesis smooth : joined z P r 0 m.
Definition home (x : Qc) (c : nat) : Prop := c < m /\ (z c <= x)%Qc /\ (x <= z (S c))%Qc /\ ((x < z (S c))%Qc \/ S c = m).
Hypothesis vanish : forall i c, i < start mu m -> home (g i) c -> peval (P c) (g i) = 0%Qc.

Lemma home_exists x : (z 0 <= x)%Qc -> (x <= z m)%Qc -> exists c, home x c.
Proof.
  intros H1 H2. assert (forall k, k <= m -> (x < z k)%Qc -> exists c, home x c) as G.
  { induction k as [|k IH]; intros Hk H. - apply Qcle_not_lt in H1. contradiction.
    - destruct (Qclt_le_dec x (z k)) as [L|L]; [apply IH; auto; lia|]. exists k. repeat split; auto; try lia. now apply Qclt_le_weak. }
  destruct (Qcle_lt_or_eq _ _ H2) as [L|L]; [now apply (G m)|]. exists (m - 1). replace (S (m - 1)) with m by lia. unfold home. replace (S (m - 1)) with m by lia.
  repeat split; auto; try lia. rewrite L. apply (knots_le z 0 m); auto; lia.
Qed.
Lemma g_lt i j : i < j -> j < start mu m -> (g i < g j)%Qc.
Proof. induction 1; intros H'; [now apply g_up|]. eapply Qclt_trans; [apply IHle; lia|]. now apply g_up. Qed.
Lemma home_mono x y c d : home x c -> home y d -> (x < y)%Qc -> c <= d.
Proof.
  intros (A1 & A2 & A3 & A4) (B1 & B2 & B3 & B4) H. destruct (le_lt_dec c d) as [L|L]; auto. exfalso.
  destruct B4 as [B4|B4]; [|lia]. assert (z (S d) <= z c)%Qc by (apply (knots_le z 0 m); auto; lia). 
  assert (y < x)%Qc as Y by (eapply Qclt_le_trans; [exact B4|]; eapply Qcle_trans; eauto). apply Qclt_le_weak, Qcle_not_lt in Y. contradiction.
Qed.
Lemma zero_points n : forall i, i + n <= start mu m -> exists l, map snd l = map g (seq i n) /\ StronglySorted before l /\ Forall (fun p => home (snd p) (fst p)) l.
Proof.
  induction n as [|n IH]; intros i H; [exists []; repeat split; constructor|]. destruct (IH (S i)) as (l & E & So & F); [lia|].
  destruct (home_exists (g i)) as (c & Hc); [apply g_lo; lia|apply g_hi; lia|]. exists ((c, g i) :: l). split; [cbn; now rewrite E|]. split; [|now constructor]. constructor; auto.
  rewrite Forall_forall in *. intros p Hp. assert (In (snd p) (map g (seq (S i) n))) as I by (rewrite <- E; now apply in_map). apply in_map_iff in I as (j & Ej & Hj). apply in_seq in Hj.
  assert (g i < snd p)%Qc as L by (rewrite <- Ej; apply g_lt; lia). split; auto. cbn [fst]. apply (home_mono (g i) (snd p)); auto.
Qed.
Lemma block_before c : nonzero (P c) -> exists a, a <= c /\ (forall k, a <= k -> k <= c -> nonzero (P k)) /\ (a = 0 \/ (0 < a /\ forall x, peval (P (a - 1)) x = 0%Qc)).
Proof.
  induction c as [|c IH]; intros N. - exists 0. split; [lia|]. split; [|now left]. intros k _ Hk. now replace k with 0 by lia.
  - destruct (nonzero_dec (P c)) as [Nc|Zc].
    + destruct (IH Nc) as (a & A1 & A2 & A3). exists a. split; [lia|]. split; auto. intros k K1 K2. destruct (Nat.eq_dec k (S c)) as [->|]; auto. apply A2; lia.
    + exists (S c). split; [lia|]. split; [intros k K1 K2; now replace k with (S c) by lia|]. right. split; [lia|]. now replace (S c - 1) with c by lia.
Qed.
Lemma block_after n : forall c, m - c <= n -> c < m -> nonzero (P c) -> exists b, c < b /\ b <= m /\ (forall k, c <= k -> k < b -> nonzero (P k)) /\ (b = m \/ (b < m /\ forall x, peval (P b) x = 0%Qc)).
Proof.
  induction n as [|n IH]; intros c Hn Hc N; [lia|]. destruct (Nat.eq_dec (S c) m) as [E|E].
  - exists m. repeat split; auto. intros k K1 K2. now replace k with c by lia.
  - destruct (nonzero_dec (P (S c))) as [Nc|Zc].
    + destruct (IH (S c)) as (b & B1 & B2 & B3 & B4); auto; try lia. exists b. repeat split; auto; try lia. intros k K1 K2. destruct (Nat.eq_dec k c) as [->|]; auto. apply B3; lia.
    + exists (S c). repeat split; auto; try lia. * intros k K1 K2. now replace k with c by lia. * right. split; auto. lia.
Qed.
Theorem vanishing : forall c x, c < m -> peval (P c) x = 0%Qc.
Proof.
  intros c x Hc. destruct (nonzero_dec (P c)) as [N|N]; [|apply N]. exfalso.
  destruct (block_before c N) as (a & A1 & A2 & A3). destruct (block_after (m - c) c (le_n _) Hc N) as (b & B1 & B2 & B3 & B4).
  assert (forall k, a <= k -> k < b -> nonzero (P k)) as NZ. { intros k K1 K2. destruct (le_lt_dec k c); [apply A2|apply B3]; lia. }
  assert (contact (r a) (z a) (P a) []) as Ca.
  { destruct A3 as [->|[A3 A4]]. - unfold r. rewrite mult_0, Nat.sub_diag. apply contact_0.
    - destruct (smooth a ltac:(lia) ltac:(lia)) as (h & E). exists h. intros y. rewrite <- E, A4. cbn. ring. }
  assert (contact (r b) (z b) (P (b - 1)) []) as Cb.
  { destruct B4 as [->|[B4 B5]]. - unfold r. rewrite mult_m, Nat.sub_diag. apply contact_0.
    - destruct (smooth b ltac:(lia) ltac:(lia)) as (h & E). exists (pscale (- (1))%Qc h). intros y. rewrite peval_pscale. replace (qpow (y - z b) (r b) * (- (1) * peval h y))%Qc with (- (qpow (y - z b) (r b) * peval h y))%Qc by ring. rewrite <- E, B5. cbn. ring. }
  pose proof (start_le mu a b ltac:(lia)) as L1. pose proof (start_le mu (S b) (S m) ltac:(lia)) as L2. rewrite !start_S, mult_m in L2.
  pose proof (mult a ltac:(lia)) as Ma. pose proof (mult b ltac:(lia)) as Mb.
  set (n := start mu b + mu b - S q - start mu a). assert (n = 0 \/ start mu a + n <= start mu m) as Hn by lia.
  assert (exists l, map snd l = map g (seq (start mu a) n) /\ StronglySorted before l /\ Forall (fun p => home (snd p) (fst p)) l) as (l & El & So & Ho).
  { destruct Hn as [->|Hn]; [exists []; repeat split; constructor|]. apply zero_points. lia. }
  assert (length l = n) as Ll. { apply (f_equal (@length Qc)) in El. now rewrite !map_length, seq_length in El. }
  assert (Forall (fun p => exists i, i < start mu m /\ snd p = g i /\ start mu a <= i /\ i + S q < start mu (S b)) l) as Ix.
  { rewrite Forall_forall in *. intros p Hp. assert (In (snd p) (map g (seq (start mu a) n))) as I by (rewrite <- El; now apply in_map). apply in_map_iff in I as (i & Ei & Hi). apply in_seq in Hi.
    exists i. rewrite start_S. repeat split; auto; lia. }
  assert (Forall (inside z a b) l /\ (0 < r a -> Forall (before (a, z a)) l) /\ (0 < r b -> Forall (fun p => before p (b - 1, z b)) l) /\ Forall (fun p => val P p = 0%Qc) l) as (In & Ba & Bb & Va).
  { assert (forall p, In p l -> a <= fst p /\ fst p < b) as Rg.
    { rewrite Forall_forall in *. intros p Hp. destruct (Ix p Hp) as (i & I1 & I2 & I3 & I4). destruct (Ho p Hp) as (H1 & H2 & H3 & H4). split.
      - destruct (Nat.eq_dec a 0) as [->|Na]; [lia|]. assert (z a < snd p)%Qc as X by (rewrite I2; apply g_after; auto; lia). destruct (le_lt_dec a (fst p)) as [L|L]; auto. exfalso.
        assert (z (S (fst p)) <= z a)%Qc as Y by (apply (knots_le z 0 m); auto; lia). apply (Qcle_not_lt _ _ (Qcle_trans _ _ _ H3 Y)); auto.
      - destruct (Nat.eq_dec b m) as [->|Nb]; [lia|]. assert (snd p < z b)%Qc as X by (rewrite I2; apply g_before; auto; lia). destruct (le_lt_dec b (fst p)) as [L|L]; auto. exfalso.
        assert (z b <= z (fst p))%Qc as Y by (apply (knots_le z 0 m); auto; lia). apply (Qcle_not_lt _ _ (Qcle_trans _ _ _ Y H2)); auto. }
    rewrite !Forall_forall in *. split; [|split; [|split]].
    - intros p Hp. destruct (Rg p Hp). destruct (Ho p Hp) as (H1 & H2 & H3 & H4). repeat split; auto.
    - intros Hr p Hp. destruct (Rg p Hp). destruct (Ix p Hp) as (i & I1 & I2 & I3 & I4). split; cbn; auto. rewrite I2. apply g_after; auto; try lia. destruct (Nat.eq_dec a 0) as [->|Na]; [|lia]. unfold r in Hr. rewrite mult_0 in Hr. lia.
    - intros Hr p Hp. destruct (Rg p Hp). destruct (Ix p Hp) as (i & I1 & I2 & I3 & I4). split; cbn; [lia|]. assert (b <> m). { intros ->. unfold r in Hr. rewrite mult_m in Hr. lia. } rewrite I2. apply g_before; auto; lia.
    - intros p Hp. destruct (Ix p Hp) as (i & I1 & I2 & I3 & I4). unfold val. rewrite I2. apply vanish; auto. rewrite <- I2. auto. }
  assert (length l + r a + r b < dimension r q a b) as Z.
  { apply (zeros q (b - a) a b P r (r a) (r b) z l); auto; try lia. - apply (rising_part z 0 m); auto; lia. - intros k K1 K2. apply deg; lia. - apply (joined_part z P r 0 m); auto; lia. }
  assert (dimension r q a b = S q + list_sum (map mu (seq (S a) (b - a - 1)))) as D.
  { unfold dimension. f_equal. f_equal. apply map_ext_in. intros k Hk. apply in_seq in Hk. unfold r. specialize (mult k ltac:(lia)). lia. }
  pose proof (start_part mu (S a) (b - a - 1)) as Sp. replace (S a + (b - a - 1)) with b in Sp by lia. rewrite start_S in Sp. unfold r in *. lia.
Qed.
End Space.
