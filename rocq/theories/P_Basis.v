(** Properties of the Cox-de Boor recursion: support, partition of unity,
    positivity, end points, affine invariance, reversal, polar form
    (blossom), symmetry, change of span, knot refinement. *)
From Coq Require Import List Arith Lia QArith Qcanon.
From Verif Require Import Base BaseQc S_Grid S_Spline.
Import ListNotations.
Local Open Scope Qc_scope.

Definition mono (U : nat -> Qc) : Prop := forall i j, (i <= j)%nat -> U i <= U j.

(** Polar form of the basis functions: one argument per degree; the head of
    the list is applied last. *)
Fixpoint blossom (U : nat -> Qc) (s : nat) (ts : list Qc) (i : nat) : Qc :=
  match ts with
  | [] => if Nat.eqb i s then 1 else 0
  | t :: r =>
      let q := length r in
      (t - U i) / (U (i + S q)%nat - U i) * blossom U s r i
      + (U (i + q + 2)%nat - t) / (U (i + q + 2)%nat - U (i + 1)%nat)
        * blossom U s r (i + 1)
  end.

Lemma basis_blossom U s p i u : basis U s p i u = blossom U s (repeat u p) i.
Proof.
  revert i; induction p; intros i; cbn [basis blossom repeat]; auto.
  rewrite repeat_length, !IHp. reflexivity.
Qed.

Lemma blossom_right U s ts i : (s < i)%nat -> blossom U s ts i = 0.
Proof.
  revert i; induction ts; intros i H; cbn [blossom].
  - destruct (Nat.eqb_spec i s); [lia|reflexivity].
  - rewrite !IHts by lia. ring.
Qed.

Lemma blossom_left U s ts i : (i + length ts < s)%nat -> blossom U s ts i = 0.
Proof.
  revert i; induction ts; intros i H; cbn [blossom length] in *.
  - destruct (Nat.eqb_spec i s); [lia|reflexivity].
  - rewrite !IHts by lia. ring.
Qed.

Lemma blossom_supp U s ts i :
  blossom U s ts i = 0 \/ (i <= s /\ s <= i + length ts)%nat.
Proof.
  destruct (le_lt_dec i s); [|left; now apply blossom_right].
  destruct (le_lt_dec s (i + length ts)); [now right|left; now apply blossom_left].
Qed.

(** Denominators that matter are positive. *)
Lemma span_pos U s a b :
  mono U -> U s < U (S s) -> (a <= s)%nat -> (s < b)%nat -> 0 < U b - U a.
Proof.
  intros M H Ha Hb. pose proof (M a s Ha). pose proof (M (S s) b ltac:(lia)). qlra.
Qed.
Lemma span_neq U s a b :
  mono U -> U s < U (S s) -> (a <= s)%nat -> (s < b)%nat -> U b - U a <> 0.
Proof.
  intros M H Ha Hb E. pose proof (span_pos U s a b M H Ha Hb) as P. rewrite E in P. qlra.
Qed.

Lemma blossom_sum U s ts n :
  mono U -> U s < U (S s) -> (length ts <= s)%nat -> (s < n)%nat ->
  qsum (map (blossom U s ts) (seq 0 n)) = 1.
Proof.
  intros M Hs. revert n; induction ts as [|t r IH]; intros n Hl Hn; cbn [blossom length] in *.
  - rewrite (qsum_single _ n s); auto.
    + now rewrite Nat.eqb_refl.
    + intros i Hi Hne. destruct (Nat.eqb_spec i s); [lia|reflexivity].
  - set (q := length r) in *.
    rewrite qsum_map_add.
    set (f := fun i => (t - U i) / (U (i + S q)%nat - U i) * blossom U s r i).
    set (g := fun i => (U (i + q + 1)%nat - t) / (U (i + q + 1)%nat - U i) * blossom U s r i).
    assert (E : qsum (map (fun x => (U (x + q + 2)%nat - t) /
              (U (x + q + 2)%nat - U (x + 1)%nat) * blossom U s r (x + 1)) (seq 0 n))
              = qsum (map g (seq 0 n))).
    { transitivity (qsum (map (fun x => g (S x)) (seq 0 n))).
      - apply qsum_ext. intros x _. unfold g.
        replace (x + q + 2)%nat with (S x + q + 1)%nat by lia.
        replace (x + 1)%nat with (S x) by lia. reflexivity.
      - assert (A := qsum_seq_0 g n). rewrite qsum_seq_S in A.
        assert (g 0%nat = 0).
        { unfold g. rewrite blossom_left by (unfold q in *; lia). ring. }
        assert (g n = 0).
        { unfold g. rewrite blossom_right by lia. ring. }
        rewrite H, H0 in A. rewrite <- (Qcplus_0_l (qsum (map (fun x => g (S x)) _))).
        rewrite <- A. ring. }
    rewrite E, <- qsum_map_add. rewrite <- (IH n) by lia.
    apply qsum_ext. intros i _. unfold f, g.
    replace (i + S q)%nat with (i + q + 1)%nat by lia.
    destruct (blossom_supp U s r i) as [->|[Ha Hb]]; [ring|].
    field. apply (span_neq U s); auto. fold q in Hb. lia.
Qed.

Lemma basis_nonneg U s p i u :
  mono U -> U s < U (S s) -> U s <= u -> u <= U (S s) -> 0 <= basis U s p i u.
Proof.
  intros M Hs Hl Hu. revert i; induction p as [|q IH]; intros i; cbn [basis].
  - destruct (Nat.eqb i s); discriminate.
  - assert (A : 0 <= (u - U i) / (U (i + S q)%nat - U i) * basis U s q i u).
    { destruct (blossom_supp U s (repeat u q) i) as [E|[Ha Hb]].
      - rewrite basis_blossom, E, Qcmult_0_r. apply Qcle_refl.
      - rewrite repeat_length in Hb. apply Qc_mul_nonneg; auto. apply Qc_div_nonneg.
        + pose proof (M i s Ha). qlra.
        + pose proof (M i (i + S q)%nat ltac:(lia)). qlra. }
    assert (B : 0 <= (U (i + q + 2)%nat - u) / (U (i + q + 2)%nat - U (i + 1)%nat)
                     * basis U s q (i + 1) u).
    { destruct (blossom_supp U s (repeat u q) (i + 1)) as [E|[Ha Hb]].
      - rewrite (basis_blossom U s q (i + 1)), E, Qcmult_0_r. apply Qcle_refl.
      - rewrite repeat_length in Hb. apply Qc_mul_nonneg; auto. apply Qc_div_nonneg.
        + pose proof (M (S s) (i + q + 2)%nat ltac:(lia)). qlra.
        + pose proof (M (i + 1)%nat (i + q + 2)%nat ltac:(lia)). qlra. }
    qlra.
Qed.

(** Polar forms with knots as arguments are non-negative when every argument
    lies in [U s, U (s+1)] (used for knots inside one span) -- the general
    version for refinement is further below. *)

(** Left end: all arguments equal the (multiple) knot at the start of the span. *)
Lemma blossom_at_left U s m t i :
  mono U -> U s < U (S s) -> (m <= s)%nat ->
  (forall k, (s - m < k)%nat -> (k <= s)%nat -> U k = t) ->
  blossom U s (repeat t m) i = if Nat.eqb (i + m) s then 1 else 0.
Proof.
  intros M Hs. revert i; induction m as [|m IH]; intros i Hm Hk; cbn [repeat blossom].
  - now rewrite Nat.add_0_r.
  - rewrite repeat_length, !IH by (try lia; intros; apply Hk; lia).
    destruct (Nat.eqb_spec (i + S m) s) as [E|E].
    + replace (i + 1 + m)%nat with s by lia. rewrite Nat.eqb_refl.
      destruct (Nat.eqb_spec (i + m) s); [lia|].
      rewrite (Hk (i + 1)%nat) by lia. rewrite Qcmult_0_r.
      field. rewrite <- (Hk (i + 1)%nat) by lia. apply (span_neq U s); auto; lia.
    + destruct (Nat.eqb_spec (i + 1 + m) s); [lia|].
      destruct (Nat.eqb_spec (i + m) s) as [E2|]; [|ring].
      rewrite (Hk i) by lia.
      replace (t - t) with 0 by ring. unfold Qcdiv. ring.
Qed.

(** Right end. *)
Lemma blossom_at_right U s m t i :
  mono U -> U s < U (S s) ->
  (forall k, (s < k)%nat -> (k <= s + m)%nat -> U k = t) ->
  blossom U s (repeat t m) i = if Nat.eqb i s then 1 else 0.
Proof.
  intros M Hs. revert i; induction m as [|m IH]; intros i Hk; cbn [repeat blossom]; auto.
  rewrite repeat_length, !IH by (intros; apply Hk; lia).
  destruct (Nat.eqb_spec i s) as [->|E].
  - destruct (Nat.eqb_spec (s + 1) s); [lia|].
    rewrite (Hk (s + S m)%nat) by lia. rewrite Qcmult_0_r.
    field. rewrite <- (Hk (s + S m)%nat) by lia. apply (span_neq U s); auto; lia.
  - destruct (Nat.eqb_spec (i + 1) s) as [E2|]; [|ring].
    rewrite (Hk (i + m + 2)%nat) by lia.
    replace (t - t) with 0 by ring. unfold Qcdiv. ring.
Qed.

(** Symmetry: exchanging the two outermost arguments. *)
Lemma blossom_swap U s a b r i :
  mono U -> U s < U (S s) ->
  blossom U s (a :: b :: r) i = blossom U s (b :: a :: r) i.
Proof.
  intros M Hs. cbn [blossom length]. set (q := length r).
  replace (i + 1 + S q)%nat with (i + q + 2)%nat by lia.
  replace (i + 1 + q + 2)%nat with (i + S q + 2)%nat by lia.
  replace (i + 1 + 1)%nat with (i + 2)%nat by lia.
  replace (i + S (S q))%nat with (i + q + 2)%nat by lia.
  set (B0 := blossom U s r i). set (B1 := blossom U s r (i + 1)).
  set (B2 := blossom U s r (i + 2)).
  assert (H1 : B1 = 0 \/ (i + 1 <= s /\ s <= i + 1 + q)%nat)
    by (unfold B1, q; apply blossom_supp).
  replace ((a - U i) / (U (i + q + 2)%nat - U i) *
    ((b - U i) / (U (i + S q)%nat - U i) * B0 +
     (U (i + q + 2)%nat - b) / (U (i + q + 2)%nat - U (i + 1)%nat) * B1) +
    (U (i + S q + 2)%nat - a) / (U (i + S q + 2)%nat - U (i + 1)%nat) *
    ((b - U (i + 1)%nat) / (U (i + q + 2)%nat - U (i + 1)%nat) * B1 +
     (U (i + S q + 2)%nat - b) / (U (i + S q + 2)%nat - U (i + 2)%nat) * B2))
  with ((a - U i) / (U (i + q + 2)%nat - U i) * ((b - U i) / (U (i + S q)%nat - U i)) * B0
   + ((a - U i) / (U (i + q + 2)%nat - U i) *
       ((U (i + q + 2)%nat - b) / (U (i + q + 2)%nat - U (i + 1)%nat))
     + (U (i + S q + 2)%nat - a) / (U (i + S q + 2)%nat - U (i + 1)%nat) *
       ((b - U (i + 1)%nat) / (U (i + q + 2)%nat - U (i + 1)%nat))) * B1
   + (U (i + S q + 2)%nat - a) / (U (i + S q + 2)%nat - U (i + 1)%nat) *
      ((U (i + S q + 2)%nat - b) / (U (i + S q + 2)%nat - U (i + 2)%nat)) * B2)
  by ring.
  replace ((b - U i) / (U (i + q + 2)%nat - U i) *
    ((a - U i) / (U (i + S q)%nat - U i) * B0 +
     (U (i + q + 2)%nat - a) / (U (i + q + 2)%nat - U (i + 1)%nat) * B1) +
    (U (i + S q + 2)%nat - b) / (U (i + S q + 2)%nat - U (i + 1)%nat) *
    ((a - U (i + 1)%nat) / (U (i + q + 2)%nat - U (i + 1)%nat) * B1 +
     (U (i + S q + 2)%nat - a) / (U (i + S q + 2)%nat - U (i + 2)%nat) * B2))
  with ((b - U i) / (U (i + q + 2)%nat - U i) * ((a - U i) / (U (i + S q)%nat - U i)) * B0
   + ((b - U i) / (U (i + q + 2)%nat - U i) *
       ((U (i + q + 2)%nat - a) / (U (i + q + 2)%nat - U (i + 1)%nat))
     + (U (i + S q + 2)%nat - b) / (U (i + S q + 2)%nat - U (i + 1)%nat) *
       ((a - U (i + 1)%nat) / (U (i + q + 2)%nat - U (i + 1)%nat))) * B1
   + (U (i + S q + 2)%nat - b) / (U (i + S q + 2)%nat - U (i + 1)%nat) *
      ((U (i + S q + 2)%nat - a) / (U (i + S q + 2)%nat - U (i + 2)%nat)) * B2)
  by ring.
  f_equal; [f_equal|].
  - unfold Qcdiv. ring.
  - destruct H1 as [->|[Ha Hb]]; [ring|]. f_equal.
    assert (U (i + q + 2)%nat - U i <> 0) by (apply (span_neq U s); auto; lia).
    assert (U (i + q + 2)%nat - U (i + 1)%nat <> 0) by (apply (span_neq U s); auto; lia).
    assert (U (i + S q + 2)%nat - U (i + 1)%nat <> 0) by (apply (span_neq U s); auto; lia).
    field. auto.
  - unfold Qcdiv. ring.
Qed.

(** Outer arguments only see the inner values. *)
Lemma blossom_app_ext U s s' a r r' i :
  length r = length r' -> (forall j, blossom U s r j = blossom U s' r' j) ->
  blossom U s (a ++ r) i = blossom U s' (a ++ r') i.
Proof.
  intros Hl H. revert i; induction a as [|t a IH]; intros i; cbn [app blossom]; auto.
  rewrite !app_length, Hl, !IH. reflexivity.
Qed.

From Coq Require Import Permutation.
Lemma blossom_perm U s ts ts' i :
  mono U -> U s < U (S s) -> Permutation ts ts' ->
  blossom U s ts i = blossom U s ts' i.
Proof.
  intros M Hs P. revert i; induction P; intros i; auto.
  - change (x :: l) with ([x] ++ l). change (x :: l') with ([x] ++ l').
    apply blossom_app_ext; auto. now apply Permutation_length.
  - now apply blossom_swap.
  - now rewrite IHP1.
Qed.

(** Two spans separated by a knot t of multiplicity m give the same polar form
    as soon as t occurs m times among the arguments. *)
Lemma blossom_change_span U s s' t ts rest i :
  mono U -> U s < U (S s) -> U s' < U (S s') -> (s <= s')%nat ->
  (forall k, (s < k)%nat -> (k <= s')%nat -> U k = t) ->
  Permutation ts (repeat t (s' - s) ++ rest) ->
  blossom U s ts i = blossom U s' ts i.
Proof.
  intros M Hs Hs' Hle Hk P.
  rewrite (blossom_perm U s _ _ i M Hs (Permutation_trans P (Permutation_app_comm _ _))).
  rewrite (blossom_perm U s' _ _ i M Hs' (Permutation_trans P (Permutation_app_comm _ _))).
  apply blossom_app_ext; auto. intros j.
  rewrite (blossom_at_right U s) by (auto; intros; apply Hk; lia).
  rewrite (blossom_at_left U s') by (auto; try lia; intros; apply Hk; lia).
  destruct (Nat.eqb_spec j s), (Nat.eqb_spec (j + (s' - s)) s'); auto; lia.
Qed.

(** Affine invariance. *)
Lemma basis_affine U a b s p i u :
  a <> 0 -> basis (fun k => a * U k + b) s p i (a * u + b) = basis U s p i u.
Proof.
  intros Ha. revert i; induction p as [|q IH]; intros i; cbn [basis]; auto.
  rewrite !IH.
  assert (E : forall x y z w, (a * x + b - (a * y + b)) / (a * z + b - (a * w + b)) =
              (x - y) / (z - w)).
  { intros x y z w. replace (a * x + b - (a * y + b)) with (a * (x - y)) by ring.
    replace (a * z + b - (a * w + b)) with (a * (z - w)) by ring.
    destruct (Qc_eq_dec (z - w) 0) as [E|E].
    - rewrite E, Qcmult_0_r, !Qc_div_0. reflexivity.
    - field. auto. }
  rewrite !E. reflexivity.
Qed.

(** Reversal: V k = c - U (m - k) for k <= m. *)
Lemma basis_reverse U V c m s p i u :
  (forall k, (k <= m)%nat -> V k = c - U (m - k)%nat) ->
  (s < m)%nat -> (i + p + 1 <= m)%nat ->
  basis V (m - 1 - s) p (m - 1 - p - i) (c - u) = basis U s p i u.
Proof.
  intros HV Hs. revert i; induction p as [|q IH]; intros i Hi; cbn [basis].
  - destruct (Nat.eqb_spec (m - 1 - 0 - i) (m - 1 - s)), (Nat.eqb_spec i s); auto; lia.
  - rewrite !HV by lia.
    replace (m - 1 - S q - i + 1)%nat with (m - 1 - q - i)%nat by lia.
    rewrite IH by lia.
    replace (m - 1 - S q - i)%nat with (m - 1 - q - (i + 1))%nat by lia.
    rewrite IH by lia.
    replace (m - (m - 1 - q - (i + 1)))%nat with (i + q + 2)%nat by lia.
    replace (m - (m - 1 - q - (i + 1) + S q))%nat with (i + 1)%nat by lia.
    replace (m - (m - 1 - q - (i + 1) + q + 2))%nat with i by lia.
    replace (m - (m - 1 - q - i))%nat with (i + S q)%nat by lia.
    replace (c - u - (c - U (i + q + 2)%nat)) with (U (i + q + 2)%nat - u) by ring.
    replace (c - U (i + 1)%nat - (c - U (i + q + 2)%nat))
      with (U (i + q + 2)%nat - U (i + 1)%nat) by ring.
    replace (c - U i - (c - u)) with (u - U i) by ring.
    replace (c - U i - (c - U (i + S q)%nat)) with (U (i + S q)%nat - U i) by ring.
    ring.
Qed.

(** Extensionality in the knots actually read. *)
Lemma basis_ext U V s p i u :
  (forall k, (i <= k)%nat -> (k <= i + p + 1)%nat -> U k = V k) ->
  basis U s p i u = basis V s p i u.
Proof.
  revert i; induction p as [|q IH]; intros i H; cbn [basis]; auto.
  rewrite (IH i), (IH (i + 1)%nat) by (intros; apply H; lia).
  rewrite !H by lia. reflexivity.
Qed.
