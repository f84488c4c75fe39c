(** Mixed radix numbers and index enumeration, first digit least significant.
    Library file: nothing splinepy-specific. *)
From Coq Require Import List Arith Lia Permutation.
From Verif Require Import Base.
Import ListNotations.

Fixpoint prodn (rs : list nat) : nat :=
  match rs with [] => 1 | r :: rs => r * prodn rs end.

Fixpoint digits (rs : list nat) (n : nat) : list nat :=
  match rs with [] => [] | r :: rs => (n mod r) :: digits rs (n / r) end.

Fixpoint undigits (rs ds : list nat) : nat :=
  match rs, ds with
  | r :: rs, d :: ds => d + r * undigits rs ds
  | _, _ => 0
  end.

Definition valid_digits (rs ds : list nat) : Prop := Forall2 (fun r d => d < r) rs ds.

Lemma prodn_pos rs : Forall (fun r => 0 < r) rs -> 0 < prodn rs.
Proof. induction 1; cbn; nia. Qed.

Lemma prodn_app a b : prodn (a ++ b) = prodn a * prodn b.
Proof. induction a; cbn; nia. Qed.

Lemma prodn_rev a : prodn (rev a) = prodn a.
Proof. induction a; cbn; auto. rewrite prodn_app, IHa. cbn. nia. Qed.

Lemma prodn_perm a b : Permutation a b -> prodn a = prodn b.
Proof. induction 1; cbn; nia. Qed.

Lemma valid_length rs ds : valid_digits rs ds -> length ds = length rs.
Proof. induction 1; cbn; auto. Qed.

Lemma length_digits rs n : length (digits rs n) = length rs.
Proof. revert n; induction rs; cbn; auto. Qed.

Lemma valid_pos rs ds : valid_digits rs ds -> Forall (fun r => 0 < r) rs.
Proof. induction 1; constructor; auto. lia. Qed.

Lemma undigits_lt rs ds : valid_digits rs ds -> undigits rs ds < prodn rs.
Proof. induction 1; cbn; nia. Qed.

Lemma digits_valid rs n : Forall (fun r => 0 < r) rs -> valid_digits rs (digits rs n).
Proof.
  intros H. revert n. induction H; intros n; cbn; constructor.
  - apply Nat.mod_upper_bound. lia.
  - apply IHForall.
Qed.

Lemma digits_undigits rs ds : valid_digits rs ds -> digits rs (undigits rs ds) = ds.
Proof.
  induction 1 as [|r d rs ds Hd H IH]; cbn; auto.
  f_equal.
  - rewrite (Nat.mul_comm r), Nat.mod_add by lia. now apply Nat.mod_small.
  - rewrite (Nat.mul_comm r), Nat.div_add by lia.
    rewrite (Nat.div_small d r) by lia. cbn. exact IH.
Qed.

Lemma undigits_digits rs n : n < prodn rs -> undigits rs (digits rs n) = n.
Proof.
  revert n; induction rs as [|r rs IH]; cbn; intros n H; [lia|].
  assert (0 < r) by nia.
  rewrite IH.
  - pose proof (Nat.div_mod n r). lia.
  - apply Nat.div_lt_upper_bound; lia.
Qed.

Lemma undigits_inj rs a b :
  valid_digits rs a -> valid_digits rs b -> undigits rs a = undigits rs b -> a = b.
Proof.
  intros Ha Hb E. rewrite <- (digits_undigits rs a Ha), <- (digits_undigits rs b Hb).
  now rewrite E.
Qed.

Lemma undigits_app r1 r2 d1 d2 :
  length r1 = length d1 ->
  undigits (r1 ++ r2) (d1 ++ d2) = undigits r1 d1 + prodn r1 * undigits r2 d2.
Proof.
  revert d1; induction r1 as [|r r1 IH]; intros [|d d1] H; cbn in *; try lia.
  rewrite IH by lia. nia.
Qed.

Lemma digits_app r1 r2 n :
  digits (r1 ++ r2) n = digits r1 n ++ digits r2 (n / prodn r1).
Proof.
  revert n; induction r1 as [|r r1 IH]; intros n; cbn [digits app prodn].
  - now rewrite Nat.div_1_r.
  - f_equal. rewrite IH. f_equal. f_equal.
    destruct r.
    + rewrite Nat.mul_0_l. change (n / 0) with 0.
      destruct (prodn r1); [reflexivity|]. apply Nat.div_0_l. lia.
    + destruct (prodn r1) eqn:E.
      * rewrite Nat.mul_0_r. reflexivity.
      * rewrite Nat.div_div by lia. reflexivity.
Qed.

(** All index tuples of a shape, last index fastest (numpy C order). *)
Fixpoint c_indices (shape : list nat) : list (list nat) :=
  match shape with
  | [] => [[]]
  | n :: sh => flat_map (fun i => map (cons i) (c_indices sh)) (seq 0 n)
  end.

(** All index tuples of a shape, first index fastest (numpy F order). *)
Definition f_indices (shape : list nat) : list (list nat) :=
  map (digits shape) (seq 0 (prodn shape)).

Lemma length_f_indices sh : length (f_indices sh) = prodn sh.
Proof. unfold f_indices. now rewrite map_length, seq_length. Qed.

Lemma in_f_indices sh ds : In ds (f_indices sh) <-> valid_digits sh ds.
Proof.
  unfold f_indices. rewrite in_map_iff. split.
  - intros (n & <- & Hn). apply in_seq in Hn. apply digits_valid.
    destruct (Forall_dec (fun r => 0 < r) (fun r => lt_dec 0 r) sh) as [|Hx]; auto.
    exfalso. assert (prodn sh = 0); [|lia].
    clear n Hn. induction sh as [|r sh IH]; [exfalso; apply Hx; constructor|].
    cbn. destruct r; auto. rewrite IH; [lia|]. intros HF. apply Hx. constructor; auto. lia.
  - intros H. exists (undigits sh ds). split.
    + now apply digits_undigits.
    + apply in_seq. apply undigits_lt in H. lia.
Qed.

Lemma NoDup_map_inv_dom {A B} (f : A -> B) l :
  (forall x y, In x l -> In y l -> f x = f y -> x = y) -> NoDup l -> NoDup (map f l).
Proof.
  intros Hf H. induction H; cbn; constructor.
  - rewrite in_map_iff. intros (y & E & Hy). apply H. rewrite <- (Hf y x); auto.
    + now right.
    + now left.
  - apply IHNoDup. intros; apply Hf; auto; now right.
Qed.

Lemma NoDup_f_indices sh : NoDup (f_indices sh).
Proof.
  unfold f_indices. apply NoDup_map_inv_dom; [|apply seq_NoDup].
  intros x y Hx Hy E. apply in_seq in Hx, Hy.
  rewrite <- (undigits_digits sh x), <- (undigits_digits sh y) by lia. now rewrite E.
Qed.

Lemma nth_error_f_indices sh k :
  nth_error (f_indices sh) k = if k <? prodn sh then Some (digits sh k) else None.
Proof.
  unfold f_indices. destruct (Nat.ltb_spec k (prodn sh)).
  - rewrite nth_error_map. rewrite (nth_error_nth' _ 0) by (rewrite seq_length; lia).
    rewrite seq_nth by lia. reflexivity.
  - apply nth_error_None. rewrite map_length, seq_length. lia.
Qed.

(** First-fastest enumeration unrolled on the last axis. *)
Lemma f_indices_snoc sh n :
  f_indices (sh ++ [n]) =
  flat_map (fun i => map (fun ds => ds ++ [i]) (f_indices sh)) (seq 0 n).
Proof.
  unfold f_indices. rewrite prodn_app. cbn [prodn]. rewrite Nat.mul_1_r.
  induction n.
  - rewrite Nat.mul_0_r. reflexivity.
  - rewrite seq_S, flat_map_app. cbn [flat_map]. rewrite app_nil_r.
    replace (prodn sh * S n) with (prodn sh * n + prodn sh) by nia.
    rewrite seq_app, map_app. cbn [Nat.add].
    assert (E : map (digits (sh ++ [S n])) (seq 0 (prodn sh * n)) =
                map (digits (sh ++ [n])) (seq 0 (prodn sh * n))).
    { apply map_ext_in. intros k Hk. apply in_seq in Hk.
      rewrite !digits_app. cbn [digits]. f_equal.
      assert (k / prodn sh < n) by (apply Nat.div_lt_upper_bound; lia).
      rewrite !Nat.mod_small by lia. reflexivity. }
    rewrite E, IHn. f_equal.
    rewrite map_map.
    rewrite <- (Nat.add_0_r (prodn sh * n)), <- seq_shift_add, map_map.
    apply map_ext_in. intros k Hk. apply in_seq in Hk.
    rewrite digits_app. cbn [digits].
    rewrite (Nat.mul_comm (prodn sh)), (Nat.add_comm (n * prodn sh)).
    rewrite Nat.div_add by lia. rewrite (Nat.div_small k) by lia. cbn [Nat.add].
    rewrite Nat.mod_small by lia. f_equal.
    clear. assert (H : forall q, digits sh (k + q * prodn sh) = digits sh k).
    { revert k. induction sh as [|r sh IH]; intros k q; cbn; auto.
      replace (q * (r * prodn sh)) with ((q * prodn sh) * r) by nia.
      destruct r.
      - rewrite Nat.mul_0_r, Nat.add_0_r. reflexivity.
      - rewrite Nat.mod_add, Nat.div_add by lia. f_equal. apply IH. }
    apply H.
Qed.

Lemma flat_map_map {A B C} (f : B -> list C) (g : A -> B) l :
  flat_map f (map g l) = flat_map (fun x => f (g x)) l.
Proof. induction l; cbn; auto. now rewrite IHl. Qed.

Lemma map_flat_map {A B C} (f : B -> C) (g : A -> list B) l :
  map f (flat_map g l) = flat_map (fun x => map f (g x)) l.
Proof. induction l; cbn; auto. now rewrite map_app, IHl. Qed.

(** Reversing axes turns C order into F order. *)
Lemma c_indices_rev sh : map (@rev nat) (c_indices (rev sh)) = f_indices sh.
Proof.
  rewrite <- (rev_involutive sh) at 2. generalize (rev sh) as l. clear sh.
  induction l as [|n l IH]; cbn [c_indices].
  - reflexivity.
  - cbn [rev]. rewrite f_indices_snoc, <- IH, map_flat_map.
    apply flat_map_ext. intros i. rewrite !map_map. apply map_ext. intros; reflexivity.
Qed.

Lemma in_c_indices sh ds : In ds (c_indices sh) <-> valid_digits sh ds.
Proof.
  revert ds; induction sh as [|n sh IH]; cbn; intros ds.
  - split; [intros [<-|[]]; constructor|]. intros H; inversion H; auto.
  - rewrite in_flat_map. split.
    + intros (i & Hi & H). apply in_map_iff in H. destruct H as (e & <- & He).
      apply in_seq in Hi. constructor; [lia|]. now apply IH.
    + intros H; inversion H; subst. exists y. split; [apply in_seq; lia|].
      apply in_map. now apply IH.
Qed.

Lemma length_c_indices sh : length (c_indices sh) = prodn sh.
Proof.
  rewrite <- (rev_involutive sh), prodn_rev, <- length_f_indices, <- c_indices_rev.
  now rewrite map_length.
Qed.

Lemma NoDup_c_indices sh : NoDup (c_indices sh).
Proof.
  rewrite <- (rev_involutive sh).
  assert (H : NoDup (map (@rev nat) (c_indices (rev (rev sh))))) by (rewrite c_indices_rev; apply NoDup_f_indices).
  apply NoDup_map_inv in H. exact H.
Qed.

Lemma digits_rec_nth rs n k d :
  k < length rs -> nth k (digits rs n) d = (n / prodn (firstn k rs)) mod nth k rs 0.
Proof.
  revert n k; induction rs as [|r rs IH]; intros n [|k] H; cbn [length] in *; try lia.
  - cbn [digits nth firstn prodn]. now rewrite Nat.div_1_r.
  - cbn [digits nth firstn prodn]. rewrite IH by lia. f_equal.
    destruct r.
    { rewrite Nat.mul_0_l. change (n / 0) with 0.
      destruct (prodn (firstn k rs)); [reflexivity|]. apply Nat.div_0_l. lia. }
    destruct (prodn (firstn k rs)) eqn:E; [now rewrite Nat.mul_0_r|].
    rewrite Nat.div_div by lia. reflexivity.
Qed.

Lemma valid_nth rs ds k :
  valid_digits rs ds -> k < length rs -> nth k ds 0 < nth k rs 0.
Proof.
  intros V; revert k; induction V; intros [|k] Hk; cbn in *; try lia. apply IHV. lia.
Qed.

Lemma prodn_pos_inv rs : 0 < prodn rs -> Forall (fun r => 0 < r) rs.
Proof.
  induction rs as [|r rs IH]; cbn; intros H; constructor; [nia|]. apply IH. nia.
Qed.
