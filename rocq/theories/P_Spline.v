(** Lemmas about spline values: spans, tensor sums, control nets. *)
From Coq Require Import List Arith Lia QArith Qcanon Permutation.
From Verif Require Import Base BaseRadix BaseQc M_Numpy M_Grid S_Grid P_Grid S_Spline P_Basis.
Import ListNotations.
Local Open Scope Qc_scope.

(** Knots *)
Lemma kn_nth kv i d : (i < length kv)%nat -> kn kv i = nth i kv d.
Proof. intros. unfold kn. now apply nth_indep. Qed.

Lemma last_nth {A} (l : list A) d : last l d = nth (length l - 1) l d.
Proof.
  induction l as [|a l IH]; auto. cbn [last length]. destruct l as [|b l]; auto.
  rewrite IH. cbn [length]. replace (S (S (length l)) - 1)%nat with (S (S (length l) - 1)) by lia.
  cbn [nth]. reflexivity.
Qed.

Lemma kn_past kv i : (length kv <= i)%nat -> kn kv i = kn kv (length kv - 1).
Proof.
  intros. unfold kn. rewrite nth_overflow by lia. rewrite last_nth.
  destruct kv; auto. apply nth_indep. cbn; lia.
Qed.

Lemma kn_mono kv : non_decreasing kv -> mono (kn kv).
Proof.
  intros H i j Hij.
  destruct (Nat.eq_dec (length kv) 0) as [E|E].
  { rewrite (kn_past kv i), (kn_past kv j) by lia. apply Qcle_refl. }
  assert (G : forall k, kn kv k = nth (Nat.min k (length kv - 1)) kv 0).
  { intros k. destruct (le_lt_dec (length kv) k).
    - rewrite kn_past by lia. rewrite Nat.min_r by lia. apply kn_nth. lia.
    - rewrite Nat.min_l by lia. now apply kn_nth. }
  rewrite !G. apply H; lia.
Qed.

(** Spans *)
Lemma last_filter_seq (f : nat -> bool) s n d :
  (exists x, (s <= x < s + n)%nat /\ f x = true) ->
  let y := last (filter f (seq s n)) d in
  (s <= y < s + n)%nat /\ f y = true /\ forall x, (y < x < s + n)%nat -> f x = false.
Proof.
  intros (x & Hx & Fx). induction n as [|n IH]; [lia|].
  rewrite seq_S, filter_app. cbn [filter].
  destruct (f (s + n)%nat) eqn:E.
  - cbn zeta. rewrite last_last. repeat split; try lia; auto.
  - rewrite app_nil_r. assert (x <> s + n)%nat by congruence.
    destruct IH as (A & B & C); [lia|]. cbn zeta. repeat split; try lia; auto.
    intros z Hz. destruct (Nat.eq_dec z (s + n)) as [->|]; auto. apply C. lia.
Qed.

Definition is_span (U : nat -> Qc) (p n : nat) (u : Qc) (s : nat) : Prop :=
  (p <= s)%nat /\ (s < n)%nat /\ U s < U (S s) /\ U s <= u /\
  (u < U (S s) \/ (u = U (S s) /\ U (S s) = U n)).

Lemma span_exists U p n : mono U -> U p < U n -> (p < n)%nat ->
  exists s, (p <= s)%nat /\ (s < n)%nat /\ U s < U (S s) /\ U s = U p.
Proof.
  intros M. induction n as [|n IH]; intros H Hn; [lia|].
  destruct (Nat.eq_dec p n) as [->|].
  - exists n. repeat split; auto.
  - destruct (Qclt_le_dec (U p) (U n)) as [L|L].
    + destruct (IH L ltac:(lia)) as (s & A & B & C). exists s. split; auto.
    + assert (U n = U p) by (apply Qcle_antisym; auto; apply M; lia).
      exists n. rewrite H0. repeat split; auto; lia.
Qed.

Lemma find_span_spec kv p n u :
  knot_vector p n kv -> in_domain p n kv u -> is_span (kn kv) p n u (find_span kv p n u).
Proof.
  intros (Hl & Hs & Hd) (Hlo & Hup).
  pose proof (kn_mono kv Hs) as M.
  assert (p < n)%nat as Hpn.
  { destruct (le_lt_dec n p); auto. pose proof (M n p l). exfalso. qlra. }
  unfold find_span.
  destruct (span_exists (kn kv) p n M Hd Hpn) as (s0 & A & B & C & D).
  assert (Hex : exists x, (p <= x < p + (n - p))%nat /\
            (qleb (kn kv x) u && qltb (kn kv x) (kn kv (S x)))%bool = true).
  { exists s0. split; [lia|].
    destruct (qleb_spec (kn kv s0) u); [|exfalso; apply n0; rewrite D; auto].
    destruct (qltb_spec (kn kv s0) (kn kv (S s0))); [reflexivity|contradiction]. }
  apply (last_filter_seq _ p (n - p) p) in Hex. cbn zeta in Hex.
  set (s := last _ p) in *. destruct Hex as (H1 & H2 & H3).
  apply andb_prop in H2. destruct H2 as [H2a H2b].
  destruct (qleb_spec (kn kv s) u) as [H2a'|]; [|discriminate].
  destruct (qltb_spec (kn kv s) (kn kv (S s))) as [H2b'|]; [|discriminate].
  repeat split; auto; try lia.
  destruct (Qclt_le_dec u (kn kv (S s))) as [|G]; [now left|].
  right.
  (* all spans after s are empty or start after u *)
  assert (Hall : forall x, (S s <= x)%nat -> (x <= n)%nat -> kn kv x = kn kv (S s)).
  { induction x as [|x IH]; intros X1 X2; [lia|].
    destruct (Nat.eq_dec (S s) (S x)) as [->|]; auto.
    assert (E : kn kv x = kn kv (S s)) by (apply IH; lia).
    assert (Hx := H3 x ltac:(lia)). rewrite <- E.
    destruct (qleb_spec (kn kv x) u) as [_|N]; [|exfalso; apply N; rewrite E; auto].
    destruct (qltb_spec (kn kv x) (kn kv (S x))) as [|N]; [discriminate|].
    apply Qcnot_lt_le in N. apply Qcle_antisym; auto. }
  rewrite (Hall n) in Hup by lia. split.
  - apply Qcle_antisym; auto.
  - symmetry. apply Hall; lia.
Qed.

Lemma is_span_unique U p n u s s' :
  mono U -> is_span U p n u s -> is_span U p n u s' -> s = s'.
Proof.
  intros M.
  assert (G : forall s s', is_span U p n u s -> is_span U p n u s' -> (s' <= s)%nat).
  { clear s s'. intros s s' (A & B & C & D & E) (A' & B' & C' & D' & E').
    destruct (le_lt_dec s' s) as [|L]; auto.
    pose proof (M (S s) s' L). destruct E as [E|[E E2]].
    - exfalso. qlra.
    - pose proof (M (S s') n ltac:(lia)). exfalso. rewrite <- E2 in H0. qlra. }
  intros H H'. pose proof (G s s' H H'). pose proof (G s' s H' H). lia.
Qed.

Lemma find_span_unique kv p n u s :
  knot_vector p n kv -> in_domain p n kv u -> is_span (kn kv) p n u s -> find_span kv p n u = s.
Proof.
  intros H Hd Hs. apply (is_span_unique (kn kv) p n u).
  - apply kn_mono, H.
  - now apply find_span_spec.
  - exact Hs.
Qed.

(** Partition of unity and positivity of the basis. *)
Lemma bspline_basis_sum kv p n u :
  knot_vector p n kv -> in_domain p n kv u ->
  qsum (map (bspline_basis kv p n u) (seq 0 n)) = 1.
Proof.
  intros K D. destruct (find_span_spec kv p n u K D) as (A & B & C & _).
  unfold bspline_basis. erewrite qsum_ext; [|intros i _; apply basis_blossom].
  apply (blossom_sum (kn kv) _ (repeat u p)); auto.
  - apply kn_mono, K.
  - now rewrite repeat_length.
Qed.

Lemma bspline_basis_nonneg kv p n u i :
  knot_vector p n kv -> in_domain p n kv u -> 0 <= bspline_basis kv p n u i.
Proof.
  intros K D. destruct (find_span_spec kv p n u K D) as (A & B & C & E & F).
  apply basis_nonneg; auto.
  - apply kn_mono, K.
  - destruct F as [F|[F _]]; [now apply Qclt_le_weak|]. rewrite F at 1. apply Qcle_refl.
Qed.

(** Tensor sums *)
Lemma tensor_ext ws ws' c c' :
  Forall2 (fun a b => fst a = fst b /\ forall i, (i < fst a)%nat -> snd a i = snd b i) ws ws' ->
  (forall ix, valid_digits (map fst ws) ix -> c ix = c' ix) ->
  tensor ws c = tensor ws' c'.
Proof.
  intros H. revert c c'; induction H as [|[n w] [n' w'] ws ws' [E Hw] HF IH]; intros c c' Hc; cbn.
  - apply Hc. constructor.
  - cbn in E, Hw. subst n'. apply qsum_ext. intros i Hi. apply in_seq in Hi.
    rewrite Hw by lia. f_equal. apply IH. intros ix V. apply Hc. constructor; auto. cbn; lia.
Qed.

Lemma tensor_ext_c ws c c' :
  (forall ix, valid_digits (map fst ws) ix -> c ix = c' ix) -> tensor ws c = tensor ws c'.
Proof.
  intros. apply tensor_ext; auto. clear. induction ws; constructor; auto.
Qed.

Lemma tensor_add ws c c' : tensor ws (fun ix => c ix + c' ix) = tensor ws c + tensor ws c'.
Proof.
  revert c c'; induction ws as [|[n w] ws IH]; intros c c'; cbn; auto.
  rewrite <- qsum_map_add. apply qsum_ext. intros i _. rewrite IH. ring.
Qed.
Lemma tensor_mul_l ws a c : tensor ws (fun ix => a * c ix) = a * tensor ws c.
Proof.
  revert c; induction ws as [|[n w] ws IH]; intros c; cbn; auto.
  rewrite <- qsum_map_mul_l. apply qsum_ext. intros i _. rewrite IH. ring.
Qed.
Lemma tensor_zero ws : tensor ws (fun _ => 0) = 0.
Proof.
  induction ws as [|[n w] ws IH]; cbn; auto. apply qsum_zero. intros. rewrite IH. ring.
Qed.
Lemma tensor_qsum {A} ws (l : list A) (f : A -> list nat -> Qc) :
  tensor ws (fun ix => qsum (map (fun a => f a ix) l)) = qsum (map (fun a => tensor ws (f a)) l).
Proof.
  induction l; cbn.
  - apply tensor_zero.
  - rewrite tensor_add, IHl. reflexivity.
Qed.
Lemma tensor_one ws :
  Forall (fun a => qsum (map (snd a) (seq 0 (fst a))) = 1) ws -> tensor ws (fun _ => 1) = 1.
Proof.
  induction 1 as [|[n w] ws H HF IH]; cbn; auto. cbn in H. rewrite IH.
  transitivity (qsum (map w (seq 0 n))); auto. apply qsum_ext. intros; ring.
Qed.
Lemma tensor_nonneg ws c :
  Forall (fun a => forall i, (i < fst a)%nat -> 0 <= snd a i) ws ->
  (forall ix, valid_digits (map fst ws) ix -> 0 <= c ix) -> 0 <= tensor ws c.
Proof.
  intros H. revert c; induction H as [|[n w] ws H HF IH]; intros c Hc; cbn.
  - apply Hc. constructor.
  - apply qsum_nonneg. intros i Hi. apply in_seq in Hi. apply Qc_mul_nonneg.
    + apply H. cbn; lia.
    + apply IH. intros ix V. apply Hc. constructor; auto. cbn; lia.
Qed.

(** Pulling the sum of one axis outside. *)
Lemma tensor_axis pre n w post c :
  tensor (pre ++ (n, w) :: post) c =
  qsum (map (fun i => w i * tensor (pre ++ post)
     (fun ix => c (firstn (length pre) ix ++ i :: skipn (length pre) ix))) (seq 0 n)).
Proof.
  revert c; induction pre as [|[m v] pre IH]; intros c; cbn [app length firstn skipn tensor].
  - reflexivity.
  - transitivity (qsum (map (fun j => qsum (map (fun i => v j * (w i * tensor (pre ++ post)
      (fun ix => c (j :: firstn (length pre) ix ++ i :: skipn (length pre) ix)))) (seq 0 n))) (seq 0 m))).
    + apply qsum_ext. intros j _. rewrite IH, qsum_map_mul_l. reflexivity.
    + rewrite qsum_swap. apply qsum_ext. intros i _. rewrite <- qsum_map_mul_l.
      apply qsum_ext. intros j _. cbn. ring.
Qed.

(** Sum over all indices. *)
Fixpoint weight (ws : list (nat * (nat -> Qc))) (ix : list nat) : Qc :=
  match ws, ix with
  | (_, w) :: ws, i :: ix => w i * weight ws ix
  | _, _ => 1
  end.
Lemma tensor_sum ws c :
  tensor ws c = qsum (map (fun ix => weight ws ix * c ix) (c_indices (map fst ws))).
Proof.
  revert c; induction ws as [|[n w] ws IH]; intros c; cbn [map c_indices tensor weight fst].
  - cbn. ring.
  - rewrite qsum_flat_map. apply qsum_ext. intros i _. rewrite IH, map_map.
    rewrite <- qsum_map_mul_l. apply qsum_ext. intros ix _. cbn. ring.
Qed.

Lemma c_f_perm sh : Permutation (c_indices sh) (f_indices sh).
Proof.
  apply NoDup_Permutation; auto using NoDup_c_indices, NoDup_f_indices.
  intros. now rewrite in_c_indices, in_f_indices.
Qed.

Lemma tensor_sum_f ws c :
  tensor ws c = qsum (map (fun ix => weight ws ix * c ix) (f_indices (map fst ws))).
Proof. rewrite tensor_sum. apply qsum_perm, Permutation_map, c_f_perm. Qed.

(** Flat enumeration: control point g has multi index [digits res g]. *)
Lemma tensor_flat ws f :
  tensor ws (fun ix => f (flat_id (map fst ws) ix)) =
  qsum (map (fun g => weight ws (digits (map fst ws) g) * f g) (seq 0 (prodn (map fst ws)))).
Proof.
  rewrite tensor_sum_f. unfold f_indices. rewrite map_map. apply qsum_ext.
  intros g Hg. apply in_seq in Hg. f_equal. f_equal.
  rewrite flat_id_undigits by apply length_digits. apply undigits_digits. lia.
Qed.

Lemma axes_basis_fst axes us :
  length us = length axes -> map fst (axes_basis axes us) = map n_basis axes.
Proof.
  unfold axes_basis. revert us; induction axes as [|a axes IH]; intros [|u us] H; cbn in *; try lia; auto.
  f_equal. apply IH. lia.
Qed.
Lemma axes_basis_app a1 a2 u1 u2 :
  length a1 = length u1 -> axes_basis (a1 ++ a2) (u1 ++ u2) = axes_basis a1 u1 ++ axes_basis a2 u2.
Proof.
  unfold axes_basis. intros H. rewrite <- map_app. f_equal.
  revert u1 H; induction a1; intros [|u u1] H; cbn in *; try lia; auto. f_equal. apply IHa1. lia.
Qed.
