(** Knot refinement: basis functions of a knot vector U are combinations of the
    basis functions of a refinement T; the coefficients are polar forms. *)
From Coq Require Import List Arith Lia QArith Qcanon Permutation.
From Verif Require Import Base BaseQc S_Grid S_Spline P_Basis.
Import ListNotations.
Local Open Scope Qc_scope.

(** [T (j+p); ...; T (j+1)] *)
Definition args (T : nat -> Qc) (j p : nat) : list Qc :=
  map (fun k => T (j + k)%nat) (rev (seq 1 p)).

Lemma args_S T j q : args T j (S q) = T (j + S q)%nat :: args T j q.
Proof. unfold args. rewrite seq_S, rev_app_distr. reflexivity. Qed.
Lemma length_args T j p : length (args T j p) = p.
Proof. unfold args. now rewrite map_length, rev_length, seq_length. Qed.

Lemma args_shift_perm T j q : Permutation (args T j (S q)) (T (S j) :: args T (S j) q).
Proof.
  unfold args. transitivity (map (fun k => T (j + k)%nat) (seq 1 (S q))).
  { apply Permutation_map. symmetry. apply Permutation_rev. }
  cbn [seq map]. replace (j + 1)%nat with (S j) by lia. constructor.
  transitivity (map (fun k => T (S j + k)%nat) (seq 1 q)).
  - rewrite <- seq_shift, map_map.
    erewrite map_ext; [reflexivity|]. intros; cbn. f_equal; lia.
  - apply Permutation_map. apply Permutation_rev.
Qed.

Definition strictly_increasing (phi : nat -> nat) := forall a b, (a < b)%nat -> (phi a < phi b)%nat.

(** T refines U: every knot of U sits at position phi k of T. *)
Definition refines (U T : nat -> Qc) (phi : nat -> nat) : Prop :=
  strictly_increasing phi /\ forall k, T (phi k) = U k.

Lemma phi_grow phi a b : strictly_increasing phi -> (a <= b)%nat -> (phi a + (b - a) <= phi b)%nat.
Proof.
  intros H Hab. induction b.
  - replace a with 0%nat by lia. lia.
  - destruct (Nat.eq_dec a (S b)) as [->|]; [lia|].
    pose proof (H b (S b) ltac:(lia)). pose proof (IHb ltac:(lia)). lia.
Qed.

Section Refine.
Variables (U T : nat -> Qc) (phi mu : nat -> nat) (sigma : nat).
Hypothesis MU : mono U.
Hypothesis MT : mono T.
Hypothesis RF : refines U T phi.
Hypothesis Hmu : forall j, (j <= sigma)%nat -> U (mu j) <= T j /\ T j < U (S (mu j)).
Hypothesis Hsig : T sigma < T (S sigma).

Definition alpha (p j i : nat) : Qc := blossom U (mu j) (args T j p) i.

Lemma alpha_span j : (j <= sigma)%nat -> U (mu j) < U (S (mu j)).
Proof. intros H. destruct (Hmu j H). qlra. Qed.

Lemma phi_ge j k : T j < U k -> (j < phi k)%nat.
Proof.
  intros H. destruct (le_lt_dec (phi k) j) as [Hle|]; auto.
  pose proof (MT _ _ Hle). destruct RF as [_ E]. rewrite E in H0. exfalso. qlra.
Qed.

(** Knots of U between two consecutive new knots all equal the later one. *)
Lemma between j k :
  (S j <= sigma)%nat -> (mu j < k)%nat -> (k <= mu (S j))%nat -> U k = T (S j).
Proof.
  intros Hj H1 H2. destruct (Hmu j ltac:(lia)) as [_ A]. destruct (Hmu (S j) Hj) as [B _].
  pose proof (phi_ge j _ A) as C. pose proof (MT _ _ C) as D.
  destruct RF as [_ E]. rewrite E in D.
  pose proof (MU (S (mu j)) k ltac:(lia)). pose proof (MU k (mu (S j)) ltac:(lia)).
  apply Qcle_antisym; qlra.
Qed.

Lemma mu_le j : (S j <= sigma)%nat -> (mu j <= mu (S j))%nat.
Proof.
  intros H. destruct (le_lt_dec (mu j) (mu (S j))) as [|L]; auto.
  destruct (Hmu j ltac:(lia)) as [A _]. destruct (Hmu (S j) H) as [_ B].
  pose proof (MU (S (mu (S j))) (mu j) L). pose proof (MT j (S j) ltac:(lia)). exfalso. qlra.
Qed.

Lemma multiplicity j q :
  (S j <= sigma)%nat -> T (S j) < T (S j + S q)%nat -> (mu (S j) - mu j <= S q)%nat.
Proof.
  intros Hj H. destruct (le_lt_dec (mu (S j) - mu j) (S q)) as [|L]; auto.
  destruct (Hmu j ltac:(lia)) as [_ A].
  pose proof (phi_ge j _ A) as C. destruct RF as [Hi E].
  pose proof (phi_grow phi (S (mu j)) (mu (S j)) Hi ltac:(lia)) as G.
  assert (S j + S q <= phi (mu (S j)))%nat as G2 by lia.
  pose proof (MT _ _ G2) as D. rewrite E in D. destruct (Hmu (S j) Hj). exfalso. qlra.
Qed.

(** With m the multiplicity, T (j+1) = ... = T (j+m). *)
Lemma repeated j k :
  (S j <= sigma)%nat -> (S j <= k)%nat -> (k < S j + (mu (S j) - mu j))%nat -> T k = T (S j).
Proof.
  intros Hj H1 H2.
  destruct (Hmu j ltac:(lia)) as [_ A]. pose proof (phi_ge j _ A) as C. destruct RF as [Hi E].
  pose proof (phi_grow phi (S (mu j)) (mu (S j)) Hi ltac:(lia)) as G.
  assert (k <= phi (mu (S j)))%nat as G2 by lia.
  pose proof (MT _ _ G2) as D. rewrite E in D. destruct (Hmu (S j) Hj).
  pose proof (MT _ _ H1). apply Qcle_antisym; qlra.
Qed.

Lemma args_repeat j q m :
  (m <= S q)%nat ->
  (forall k, (S j <= k)%nat -> (k < S j + m)%nat -> T k = T (S j)) ->
  exists rest, Permutation (args T j (S q)) (repeat (T (S j)) m ++ rest).
Proof.
  intros Hm H. exists (map (fun k => T (j + k)%nat) (seq (1 + m) (S q - m))).
  unfold args. transitivity (map (fun k => T (j + k)%nat) (seq 1 (S q))).
  { apply Permutation_map. symmetry. apply Permutation_rev. }
  replace (S q) with (m + (S q - m))%nat at 1 by lia.
  rewrite seq_app, map_app. apply Permutation_app; auto.
  replace (map (fun k => T (j + k)%nat) (seq 1 m)) with (repeat (T (S j)) m); auto.
  transitivity (map (fun _ : nat => T (S j)) (seq 1 m)).
  - clear. generalize 1%nat. induction m; intros s; cbn; auto. now rewrite (IHm (S s)).
  - apply map_ext_in. intros k Hk. apply in_seq in Hk. symmetry. apply H; lia.
Qed.

Lemma alpha_prev j q i :
  (S j <= sigma)%nat -> T (S j) < T (S j + S q)%nat ->
  alpha (S q) j i =
  (T (S j) - U i) / (U (i + S q)%nat - U i) * alpha q (S j) i
  + (U (i + q + 2)%nat - T (S j)) / (U (i + q + 2)%nat - U (i + 1)%nat) * alpha q (S j) (i + 1).
Proof.
  intros Hj H. unfold alpha.
  destruct (args_repeat j q (mu (S j) - mu j)) as [rest P].
  - now apply multiplicity.
  - intros. now apply repeated.
  - rewrite (blossom_change_span U (mu j) (mu (S j)) (T (S j)) _ rest);
      auto using alpha_span, mu_le.
    + rewrite (blossom_perm U (mu (S j)) _ _ i MU (alpha_span _ Hj) (args_shift_perm T j q)).
      cbn [blossom]. rewrite length_args. reflexivity.
    + apply alpha_span; lia.
    + intros; apply between; auto.
Qed.

Lemma refine_basis p i u :
  (p <= sigma)%nat ->
  qsum (map (fun j => alpha p j i * basis T sigma p j u) (seq 0 (S sigma)))
  = basis U (mu sigma) p i u.
Proof.
  revert i; induction p as [|q IH]; intros i Hp.
  - rewrite (qsum_single _ (S sigma) sigma); [|lia|].
    + unfold alpha. cbn. rewrite Nat.eqb_refl. ring.
    + intros j Hj Hne. cbn [basis]. destruct (Nat.eqb_spec j sigma); [lia|ring].
  - cbn [basis]. rewrite <- !IH by lia.
    set (M := fun j => basis T sigma q j u).
    set (g := fun j => (T (j + q + 1)%nat - u) / (T (j + q + 1)%nat - T j) * M j).
    transitivity (qsum (map (fun j =>
        (alpha (S q) j i * ((u - T j) / (T (j + q + 1)%nat - T j))
         + alpha (S q) (pred j) i * ((T (j + q + 1)%nat - u) / (T (j + q + 1)%nat - T j))) * M j)
        (seq 0 (S sigma)))).
    { transitivity (qsum (map (fun j => alpha (S q) j i * ((u - T j) / (T (j + q + 1)%nat - T j)) * M j)
                          (seq 0 (S sigma)))
         + qsum (map (fun j => alpha (S q) j i * g (S j)) (seq 0 (S sigma)))).
      { rewrite <- qsum_map_add. apply qsum_ext. intros j _.
        unfold g, M. replace (j + S q)%nat with (j + q + 1)%nat by lia.
        replace (S j + q + 1)%nat with (j + q + 2)%nat by lia.
        replace (S j) with (j + 1)%nat by lia. ring. }
      assert (E : qsum (map (fun j => alpha (S q) j i * g (S j)) (seq 0 (S sigma))) =
                  qsum (map (fun j => alpha (S q) (pred j) i * g j) (seq 0 (S sigma)))).
      { rewrite qsum_seq_S.
        rewrite (qsum_seq_0 (fun j => alpha (S q) (pred j) i * g j)).
        assert (g 0%nat = 0) as ->.
        { unfold g, M. rewrite basis_blossom, blossom_left; [ring|]. rewrite repeat_length. lia. }
        assert (g (S sigma) = 0) as ->.
        { unfold g, M. rewrite basis_blossom, blossom_right; [ring|]. lia. }
        cbn [pred]. ring. }
      rewrite E, <- qsum_map_add. apply qsum_ext. intros j _. unfold g. ring. }
    rewrite <- !qsum_map_mul_l, <- qsum_map_add.
    apply qsum_ext. intros j Hj. apply in_seq in Hj. fold (M j).
    assert (HM : M j = 0 \/ (j <= sigma /\ sigma <= j + q)%nat).
    { unfold M. rewrite basis_blossom.
      destruct (blossom_supp T sigma (repeat u q) j) as [|H]; auto.
      rewrite repeat_length in H. auto. }
    destruct HM as [->|[H1 H2]]; [ring|].
    destruct j as [|j]; [lia|]. cbn [pred].
    assert (HD : T (S j) < T (S j + S q)%nat).
    { pose proof (MT (S j) sigma ltac:(lia)). pose proof (MT (S sigma) (S j + S q)%nat ltac:(lia)).
      qlra. }
    rewrite (alpha_prev j q i) by (auto; lia).
    unfold alpha at 1. rewrite args_S. cbn [blossom]. rewrite length_args. fold (alpha q (S j) i).
    fold (alpha q (S j) (i + 1)).
    replace (S j + q + 1)%nat with (S j + S q)%nat by lia.
    set (A := alpha q (S j) i). set (B := alpha q (S j) (i + 1)).
    unfold Qcdiv.
    set (d1 := / (U (i + S q)%nat - U i)).
    set (d2 := / (U (i + q + 2)%nat - U (i + 1)%nat)).
    field. apply Qc_lt_neq. exact HD.
Qed.

(** Row sums. *)
Lemma alpha_sum p j n :
  (j <= sigma)%nat -> (p <= mu j)%nat -> (mu j < n)%nat ->
  qsum (map (alpha p j) (seq 0 n)) = 1.
Proof.
  intros. unfold alpha. apply blossom_sum; auto using alpha_span. now rewrite length_args.
Qed.

(** Support and sign of the coefficients. *)
Lemma alpha_zero p j i : (j <= sigma)%nat -> (phi (i + p + 1) <= j + p)%nat -> alpha p j i = 0.
Proof.
  intros Hj. destruct RF as [Hi E]. revert i; induction p as [|q IH]; intros i H.
  - unfold alpha. cbn. destruct (Nat.eqb_spec i (mu j)) as [->|]; auto.
    exfalso. destruct (Hmu j Hj) as [_ B]. apply phi_ge in B.
    replace (mu j + 0 + 1)%nat with (S (mu j)) in H by lia. lia.
  - unfold alpha. rewrite args_S. cbn [blossom]. rewrite length_args.
    fold (alpha q j i). fold (alpha q j (i + 1)).
    assert (phi (i + q + 1) < phi (i + S q + 1))%nat by (apply Hi; lia).
    rewrite (IH i) by lia.
    destruct (Nat.eq_dec (phi (i + S q + 1)) (j + S q)) as [Eq|Ne].
    + rewrite <- Eq, E. replace (i + S q + 1)%nat with (i + q + 2)%nat by lia.
      unfold Qcdiv. ring.
    + rewrite (IH (i + 1)%nat); [ring|].
      replace (i + 1 + q + 1)%nat with (i + S q + 1)%nat by lia. lia.
Qed.

Lemma alpha_nonneg p j i : (j <= sigma)%nat -> 0 <= alpha p j i.
Proof.
  intros Hj. revert i; induction p as [|q IH]; intros i.
  - unfold alpha. cbn. destruct (Nat.eqb i (mu j)); discriminate.
  - unfold alpha. rewrite args_S. cbn [blossom]. rewrite length_args.
    fold (alpha q j i). fold (alpha q j (i + 1)).
    assert (A : 0 <= (T (j + S q)%nat - U i) / (U (i + S q)%nat - U i) * alpha q j i).
    { destruct (blossom_supp U (mu j) (args T j q) i) as [Z|[H _]].
      - unfold alpha. rewrite Z, Qcmult_0_r. apply Qcle_refl.
      - apply Qc_mul_nonneg; auto. apply Qc_div_nonneg.
        + pose proof (MU _ _ H). destruct (Hmu j Hj). pose proof (MT j (j + S q)%nat ltac:(lia)). qlra.
        + pose proof (MU i (i + S q)%nat ltac:(lia)). qlra. }
    assert (B : 0 <= (U (i + q + 2)%nat - T (j + S q)%nat) /
                     (U (i + q + 2)%nat - U (i + 1)%nat) * alpha q j (i + 1)).
    { destruct (Qclt_le_dec (U (i + q + 2)%nat) (T (j + S q)%nat)) as [L|L].
      - rewrite (alpha_zero q j (i + 1)); auto.
        + rewrite Qcmult_0_r. apply Qcle_refl.
        + replace (i + 1 + q + 1)%nat with (i + q + 2)%nat by lia.
          destruct (le_lt_dec (phi (i + q + 2)) (j + q)) as [|L2]; auto.
          destruct RF as [_ E]. rewrite <- E in L.
          pose proof (MT (j + S q)%nat (phi (i + q + 2)) ltac:(lia)). exfalso. qlra.
      - apply Qc_mul_nonneg; auto. apply Qc_div_nonneg; [qlra|].
        pose proof (MU (i + 1)%nat (i + q + 2)%nat ltac:(lia)). qlra. }
    qlra.
Qed.
End Refine.
