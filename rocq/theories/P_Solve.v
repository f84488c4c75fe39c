(** Proofs about the linear solver. *)
From Coq Require Import List Arith ZArith QArith Qcanon Lia Permutation.
From Verif Require Import Base BaseQc M_Solve S_Solve.
Import ListNotations.
Local Open Scope nat_scope.

(** ** Row order *)
Lemma row_lt n ord j : Permutation ord (seq 0 n) -> j < n -> row ord j < n.
Proof.
  intros P H. assert (In (row ord j) (seq 0 n)).
  { eapply Permutation_in; [exact P|]. apply nth_In.
    rewrite (Permutation_length P), seq_length; auto. }
  apply in_seq in H0; lia.
Qed.

Lemma row_inj n ord i j : Permutation ord (seq 0 n) -> i < n -> j < n -> row ord i = row ord j -> i = j.
Proof.
  intros P Hi Hj E. assert (L : length ord = n) by (rewrite (Permutation_length P), seq_length; auto).
  assert (ND : NoDup ord) by (eapply Permutation_NoDup; [symmetry; exact P|apply seq_NoDup]).
  rewrite (NoDup_nth ord 0) in ND. apply ND; auto; lia.
Qed.

Lemma row_onto n ord r : Permutation ord (seq 0 n) -> r < n -> exists j, j < n /\ row ord j = r.
Proof.
  intros P H. assert (L : length ord = n) by (rewrite (Permutation_length P), seq_length; auto).
  assert (In r ord) by (eapply Permutation_in; [symmetry; exact P|apply in_seq; lia]).
  apply In_nth with (d := 0) in H0 as (j & Hj & E). exists j; split; [lia|auto].
Qed.

Lemma swap_row_nth n ord i j k : length ord = n -> i < n -> j < n ->
  row (swap_row ord i j) k = if k =? j then row ord i else if k =? i then row ord j else row ord k.
Proof.
  intros L Hi Hj. unfold swap_row, row. rewrite set_nth_nth by (rewrite set_nth_length; lia).
  destruct (k =? j); auto. rewrite set_nth_nth by lia. reflexivity.
Qed.

Lemma swap_row_perm n ord i j : Permutation ord (seq 0 n) -> i < n -> j < n ->
  Permutation (swap_row ord i j) (seq 0 n).
Proof.
  intros P Hi Hj. assert (L : length ord = n) by (rewrite (Permutation_length P), seq_length; auto).
  assert (L' : length (swap_row ord i j) = n) by (unfold swap_row; rewrite !set_nth_length; auto).
  apply NoDup_Permutation_bis.
  - rewrite (NoDup_nth _ 0). rewrite L'. intros p q Hp Hq E.
    change (row (swap_row ord i j) p = row (swap_row ord i j) q) in E.
    rewrite !(swap_row_nth n) in E by auto. clear L L'.
    destruct (Nat.eqb_spec p j), (Nat.eqb_spec q j), (Nat.eqb_spec p i), (Nat.eqb_spec q i);
      subst; auto; apply (row_inj n) in E; auto; subst; try congruence; lia.
  - rewrite seq_length; lia.
  - intros x Hx. apply In_nth with (d := 0) in Hx as (k & Hk & E).
    change (row (swap_row ord i j) k = x) in E. rewrite (swap_row_nth n) in E by auto.
    apply in_seq. split; [lia|]. subst x.
    destruct (k =? j); [|destruct (k =? i)]; apply row_lt; auto; lia.
Qed.

(** ** Pivot search *)
Lemma pivot_fold (f : nat -> Qc) l : forall m p, m = f p ->
  let r := fold_left (fun (cur : Qc * nat) j => if qltb (fst cur) (f j) then (f j, j) else cur) l (m, p) in
  fst r = f (snd r) /\ (In (snd r) l \/ snd r = p) /\ (m <= fst r)%Qc /\
  forall j, In j l -> (f j <= fst r)%Qc.
Proof.
  induction l as [|j l IH]; intros m p E; cbn [fold_left].
  - cbn. repeat split; auto. apply Qcle_refl. intros ? [].
  - cbn [fst]. destruct (qltb_spec m (f j)) as [H|H].
    + destruct (IH (f j) j eq_refl) as (A & B & C & D). cbv zeta. repeat split; auto.
      * cbn. destruct B; auto.
      * qlra.
      * intros k [<-|K]; auto.
    + destruct (IH m p E) as (A & B & C & D). cbv zeta. repeat split; auto.
      * cbn. destruct B; auto.
      * intros k [<-|K]; auto. qlra.
Qed.

Lemma pivot_row_spec a ord len i : i < len ->
  i <= pivot_row a ord len i < len /\
  forall j, i <= j < len -> (qabs (a (row ord j) i) <= qabs (a (row ord (pivot_row a ord len i)) i))%Qc.
Proof.
  intros H. unfold pivot_row.
  destruct (pivot_fold (fun j => qabs (a (row ord j) i)) (seq (i + 1) (len - (i + 1)))
              (qabs (a (row ord i) i)) i eq_refl) as (A & B & C & D). cbv zeta in A, B, C, D.
  set (r := fold_left _ _ _) in *. split.
  - destruct B as [B|B]; [apply in_seq in B|]; lia.
  - intros j Hj. rewrite <- A. destruct (Nat.eq_dec j i) as [->|N]; auto. apply D, in_seq. lia.
Qed.

(** ** One reduction pass *)
Definition factor (s : lin) (i j : nat) : Qc := (l_a s (row (l_ord s) j) i / l_a s (row (l_ord s) i) i)%Qc.
Definition reduced (len : nat) (s : lin) (i j k : nat) : Qc :=
  if k =? i then 0%Qc
  else if (i <? k) && (k <? len)
       then (l_a s (row (l_ord s) j) k - l_a s (row (l_ord s) i) k * factor s i j)%Qc
       else l_a s (row (l_ord s) j) k.

Lemma reduce_rows len s i n : Permutation (l_ord s) (seq 0 len) -> i < len -> i + 1 + n <= len ->
  let s' := fold_left (reduce_row len i (l_a s (row (l_ord s) i) i)) (seq (i + 1) n) s in
  l_ord s' = l_ord s /\
  (forall j k, j < len -> l_a s' (row (l_ord s) j) k =
     if (i <? j) && (j <? i + 1 + n) then reduced len s i j k else l_a s (row (l_ord s) j) k) /\
  (forall j, j < len -> l_b s' (row (l_ord s) j) =
     if (i <? j) && (j <? i + 1 + n) then (l_b s (row (l_ord s) j) - l_b s (row (l_ord s) i) * factor s i j)%Qc
     else l_b s (row (l_ord s) j)).
Proof.
  intros P Hi. induction n as [|n IH]; intros Hn; cbv zeta.
  - cbn [seq fold_left]. repeat split; auto; intros; destruct (Nat.ltb_spec i j), (Nat.ltb_spec j (i + 1 + 0));
      cbn [andb]; auto; lia.
  - rewrite seq_S, fold_left_app. cbn [fold_left].
    destruct IH as (O & A & B); [lia|]. cbv zeta in O, A, B.
    set (s1 := fold_left _ _ s) in *.
    assert (Hp : i + 1 + n < len) by lia.
    assert (Ai : forall k, l_a s1 (row (l_ord s) i) k = l_a s (row (l_ord s) i) k).
    { intro k. rewrite A by lia. rewrite Nat.ltb_irrefl. reflexivity. }
    assert (Bi : l_b s1 (row (l_ord s) i) = l_b s (row (l_ord s) i)).
    { rewrite B by lia. rewrite Nat.ltb_irrefl. reflexivity. }
    assert (Ap : forall k, l_a s1 (row (l_ord s) (i + 1 + n)) k = l_a s (row (l_ord s) (i + 1 + n)) k).
    { intro k. rewrite A by lia. rewrite Nat.ltb_irrefl, Bool.andb_false_r. reflexivity. }
    assert (Bp : l_b s1 (row (l_ord s) (i + 1 + n)) = l_b s (row (l_ord s) (i + 1 + n))).
    { rewrite B by lia. rewrite Nat.ltb_irrefl, Bool.andb_false_r. reflexivity. }
    unfold reduce_row. rewrite O. cbn [l_a l_b l_ord]. split; [reflexivity|split].
    + intros j k Hj. destruct (Nat.eqb_spec (row (l_ord s) j) (row (l_ord s) (i + 1 + n))) as [E|N].
      * apply (row_inj len) in E; auto; subst j. rewrite Ai, !Ap.
        replace (i <? i + 1 + n) with true by (symmetry; apply Nat.ltb_lt; lia).
        replace (i + 1 + n <? i + 1 + S n) with true by (symmetry; apply Nat.ltb_lt; lia).
        cbn [andb]. reflexivity.
      * rewrite A by auto. assert (j <> i + 1 + n) by congruence.
        replace (j <? i + 1 + S n) with (j <? i + 1 + n); auto.
        destruct (Nat.ltb_spec j (i + 1 + n)), (Nat.ltb_spec j (i + 1 + S n)); auto; lia.
    + intros j Hj. destruct (Nat.eqb_spec (row (l_ord s) j) (row (l_ord s) (i + 1 + n))) as [E|N].
      * apply (row_inj len) in E; auto; subst j. rewrite Ap, Bi, Bp.
        replace (i <? i + 1 + n) with true by (symmetry; apply Nat.ltb_lt; lia).
        replace (i + 1 + n <? i + 1 + S n) with true by (symmetry; apply Nat.ltb_lt; lia).
        cbn [andb]. reflexivity.
      * rewrite B by auto. assert (j <> i + 1 + n) by congruence.
        replace (j <? i + 1 + S n) with (j <? i + 1 + n); auto.
        destruct (Nat.ltb_spec j (i + 1 + n)), (Nat.ltb_spec j (i + 1 + S n)); auto; lia.
Qed.

(** ** The invariant *)
Definition sols (len : nat) (s : lin) (x : nat -> Qc) : Prop :=
  forall r, r < len -> qsum (map (fun k => l_a s r k * x k)%Qc (seq 0 len)) = l_b s r.
Definition zeros (len c : nat) (s : lin) : Prop :=
  forall j k, j < len -> k < c -> k < j -> l_a s (row (l_ord s) j) k = 0%Qc.
Definition pivots (c : nat) (s : lin) : Prop :=
  forall k, k < c -> l_a s (row (l_ord s) k) k <> 0%Qc.

Lemma sols_rows len s x : Permutation (l_ord s) (seq 0 len) ->
  sols len s x <-> forall j, j < len ->
    qsum (map (fun k => l_a s (row (l_ord s) j) k * x k)%Qc (seq 0 len)) = l_b s (row (l_ord s) j).
Proof.
  intros P; split; intros H.
  - intros j Hj. apply H, row_lt; auto.
  - intros r Hr. destruct (row_onto len _ r P Hr) as (j & Hj & <-). auto.
Qed.

Lemma reduced_row len s i j x : zeros len i s -> i < len -> j < len -> i < j ->
  l_a s (row (l_ord s) i) i <> 0%Qc ->
  qsum (map (fun k => reduced len s i j k * x k)%Qc (seq 0 len)) =
  (qsum (map (fun k => l_a s (row (l_ord s) j) k * x k)%Qc (seq 0 len)) -
   qsum (map (fun k => l_a s (row (l_ord s) i) k * x k)%Qc (seq 0 len)) * factor s i j)%Qc.
Proof.
  intros Z Hi Hj Hij N. rewrite <- qsum_map_mul_r, <- qsum_map_sub.
  apply qsum_ext. intros k Hk. apply in_seq in Hk. unfold reduced.
  destruct (Nat.eqb_spec k i) as [->|E].
  - unfold factor. field; auto.
  - destruct (Nat.ltb_spec i k) as [L|L]; cbn [andb].
    + replace (k <? len) with true by (symmetry; apply Nat.ltb_lt; lia). ring.
    + rewrite (Z i k), (Z j k) by lia. ring.
Qed.

Lemma forward_step_spec len s i : Permutation (l_ord s) (seq 0 len) -> i < len ->
  zeros len i s -> pivots i s ->
  match forward_step len s i with
  | Some s' => Permutation (l_ord s') (seq 0 len) /\ zeros len (i + 1) s' /\
      (i + 1 < len -> pivots (i + 1) s') /\ pivots i s' /\
      (forall x, sols len s' x <-> sols len s x) /\
      ((forall r, r < len -> l_b s r = 0%Qc) -> forall r, r < len -> l_b s' r = 0%Qc)
  | None => exists ord, Permutation ord (seq 0 len) /\
      let s' := mkLin (l_a s) (l_b s) ord in
      zeros len i s' /\ pivots i s' /\ forall j, i <= j < len -> l_a s (row ord j) i = 0%Qc
  end.
Proof.
  intros P Hi Z PV. unfold forward_step. cbv zeta.
  destruct (pivot_row_spec (l_a s) (l_ord s) len i Hi) as (Hm & Mx).
  set (m := pivot_row (l_a s) (l_ord s) len i) in *.
  set (ord := if m =? i then l_ord s else swap_row (l_ord s) m i).
  assert (L : length (l_ord s) = len) by (rewrite (Permutation_length P), seq_length; auto).
  assert (PO : Permutation ord (seq 0 len)).
  { unfold ord. destruct (m =? i); auto. apply swap_row_perm; auto; lia. }
  assert (RO : forall k, row ord k = if k =? i then row (l_ord s) m else if k =? m then row (l_ord s) i else row (l_ord s) k).
  { intro k. unfold ord. destruct (Nat.eqb_spec m i) as [E|N].
    - rewrite E. destruct (Nat.eqb_spec k i) as [->|]; auto.
    - rewrite (swap_row_nth len) by (auto; lia). reflexivity. }
  cbn [l_a l_b l_ord].
  set (s0 := mkLin (l_a s) (l_b s) ord).
  assert (Z0 : zeros len i s0).
  { intros j k Hj Hk Hkj. cbn [s0 l_a l_ord]. rewrite RO.
    destruct (Nat.eqb_spec j i); [apply Z; lia|]. destruct (Nat.eqb_spec j m); apply Z; lia. }
  assert (PV0 : pivots i s0).
  { intros k Hk. cbn [s0 l_a l_ord]. rewrite RO.
    destruct (Nat.eqb_spec k i); [lia|]. destruct (Nat.eqb_spec k m); [lia|]. apply PV; lia. }
  assert (MX : forall j, i <= j < len -> (qabs (l_a s (row ord j) i) <= qabs (l_a s (row ord i) i))%Qc).
  { intros j Hj. rewrite (RO i), Nat.eqb_refl. rewrite RO.
    destruct (Nat.eqb_spec j i); [apply Qcle_refl|]. destruct (Nat.eqb_spec j m); apply Mx; lia. }
  destruct (qeqb_spec (l_a s (row ord i) i) 0%Qc) as [E0|N0].
  - destruct (Nat.ltb_spec (i + 1) len) as [Hl|Hl]; cbn [andb].
    + exists ord. repeat split; auto. intros j Hj. specialize (MX j Hj). rewrite E0 in MX.
      revert MX. unfold qabs. destruct (Qclt_le_dec 0 0), (Qclt_le_dec (l_a s (row ord j) i) 0); intros; qlra.
    + replace (len - (i + 1)) with 0 by lia. cbn [seq fold_left].
      repeat split; auto; try lia.
      intros j k Hj Hk Hkj. destruct (Nat.eq_dec k i); [lia|]. apply Z0; lia.
  - cbn [andb].
    destruct (reduce_rows len s0 i (len - (i + 1)) PO Hi ltac:(lia)) as (O & A & B).
    cbv zeta in O, A, B. cbn [s0 l_ord l_a] in O, A, B. fold s0 in O, A, B.
    set (s' := fold_left _ _ s0) in *.
    assert (IN : forall j, j < len -> (i <? j) && (j <? i + 1 + (len - (i + 1))) = (i <? j)).
    { intros j Hj. destruct (Nat.ltb_spec j (i + 1 + (len - (i + 1)))); [apply Bool.andb_true_r|lia]. }
    assert (A' : forall j k, j < len -> l_a s' (row ord j) k = if i <? j then reduced len s0 i j k else l_a s (row ord j) k).
    { intros j k Hj. rewrite A by auto. rewrite IN by auto. reflexivity. }
    assert (B' : forall j, j < len -> l_b s' (row ord j) = if i <? j then (l_b s (row ord j) - l_b s (row ord i) * factor s0 i j)%Qc else l_b s (row ord j)).
    { intros j Hj. rewrite B by auto. rewrite IN by auto. reflexivity. }
    rewrite O. split; [exact PO|]. split; [|split; [|split; [|split]]].
    + intros j k Hj Hk Hkj. rewrite O. rewrite A' by auto. destruct (Nat.ltb_spec i j) as [H|H].
      * unfold reduced. destruct (Nat.eqb_spec k i); auto.
        destruct (Nat.ltb_spec i k); [lia|]. cbn [andb]. apply Z0; lia.
      * apply Z0; lia.
    + intros Hl k Hk. rewrite O. rewrite A' by lia. destruct (Nat.ltb_spec i k); [lia|].
      destruct (Nat.eq_dec k i) as [->|]; auto. apply PV0; lia.
    + intros k Hk. rewrite O. rewrite A' by lia. destruct (Nat.ltb_spec i k); [lia|]. apply PV0; lia.
    + intros x. assert (SS : sols len s x <-> sols len s0 x) by reflexivity.
      rewrite SS, !sols_rows by (try rewrite O; auto). rewrite O. cbn [s0 l_ord l_a l_b].
      assert (RR : forall j, j < len ->
        qsum (map (fun k => l_a s' (row ord j) k * x k)%Qc (seq 0 len)) =
        if i <? j then
          (qsum (map (fun k => l_a s (row ord j) k * x k)%Qc (seq 0 len)) -
           qsum (map (fun k => l_a s (row ord i) k * x k)%Qc (seq 0 len)) * factor s0 i j)%Qc
        else qsum (map (fun k => l_a s (row ord j) k * x k)%Qc (seq 0 len))).
      { intros j Hj. destruct (Nat.ltb_spec i j) as [H|H].
        - etransitivity; [|exact (reduced_row len s0 i j x Z0 Hi Hj H N0)]. apply qsum_ext. intros k _.
          rewrite A' by auto. destruct (Nat.ltb_spec i j); [reflexivity|lia].
        - apply qsum_ext. intros k _. rewrite A' by auto. destruct (Nat.ltb_spec i j); [lia|reflexivity]. }
      split; intros H.
      * assert (Ei := H i Hi). rewrite RR, B' in Ei by auto. rewrite Nat.ltb_irrefl in Ei.
        intros j Hj. assert (Ej := H j Hj). rewrite RR, B' in Ej by auto.
        destruct (Nat.ltb_spec i j); auto. rewrite Ei in Ej. 
        transitivity ((qsum (map (fun k => l_a s (row ord j) k * x k)%Qc (seq 0 len)) - l_b s (row ord i) * factor s0 i j) + l_b s (row ord i) * factor s0 i j)%Qc; [ring|].
        rewrite Ej. ring.
      * intros j Hj. rewrite RR, B' by auto. destruct (i <? j); rewrite ?H by auto; auto.
    + intros Bz r Hr. destruct (row_onto len ord r PO Hr) as (j & Hj & <-). rewrite B' by auto.
      rewrite !Bz by (apply row_lt; auto). destruct (i <? j); ring.
Qed.

(** ** The whole forward phase *)
Definition fwd_upto (len c : nat) (s : lin) : option lin :=
  fold_left (fun o i => match o with None => None | Some s => forward_step len s i end)
    (seq 0 c) (Some s).

Lemma fwd_upto_spec len s c : Permutation (l_ord s) (seq 0 len) -> c <= len ->
  match fwd_upto len c s with
  | Some s' => Permutation (l_ord s') (seq 0 len) /\ zeros len c s' /\
      (c < len -> pivots c s') /\ pivots (c - 1) s' /\
      (forall x, sols len s' x <-> sols len s x) /\
      ((forall r, r < len -> l_b s r = 0%Qc) -> forall r, r < len -> l_b s' r = 0%Qc)
  | None => exists s' i, i < len /\ Permutation (l_ord s') (seq 0 len) /\ zeros len i s' /\ pivots i s' /\
      (forall j, i <= j < len -> l_a s' (row (l_ord s') j) i = 0%Qc) /\
      (forall x, sols len s' x <-> sols len s x) /\
      ((forall r, r < len -> l_b s r = 0%Qc) -> forall r, r < len -> l_b s' r = 0%Qc)
  end.
Proof.
  intros P. induction c as [|c IH]; intros Hc.
  - cbn. repeat split; auto; intros ? ?; lia.
  - unfold fwd_upto in *. rewrite seq_S, fold_left_app. cbn [fold_left]. specialize (IH ltac:(lia)).
    destruct (fold_left _ (seq 0 c) (Some s)) as [s1|]; [|exact IH].
    destruct IH as (P1 & Z1 & V1 & _ & S1 & B1). specialize (V1 ltac:(lia)).
    pose proof (forward_step_spec len s1 c P1 ltac:(lia) Z1 V1) as F. cbn [Nat.add] in *.
    destruct (forward_step len s1 c) as [s2|].
    + destruct F as (P2 & Z2 & V2 & W2 & S2 & B2). rewrite Nat.add_1_r in *.
      replace (S c - 1) with c by lia. repeat split; auto; try (intros; apply B2; auto).
      * intros H. apply S1, S2, H.
      * intros H. apply S2, S1, H.
    + destruct F as (ord & PO & ZO & VO & EO). exists (mkLin (l_a s1) (l_b s1) ord), c.
      split; [lia|]. split; [exact PO|]. split; [exact ZO|]. split; [exact VO|]. split; [exact EO|]. split.
      * intros x. rewrite <- S1. reflexivity.
      * cbn [l_b]. auto.
Qed.

Lemma forward_upto len s : forward len s = fwd_upto len len s.
Proof. reflexivity. Qed.

(** ** Back substitution *)
Lemma rev_seq_S c : rev (seq 0 (S c)) = c :: rev (seq 0 c).
Proof. rewrite seq_S, rev_app_distr. reflexivity. Qed.

Lemma qsum_seq_split (f : nat -> Qc) c n : c <= n ->
  qsum (map f (seq 0 n)) = (qsum (map f (seq 0 c)) + qsum (map f (seq c (n - c))))%Qc.
Proof.
  intros H. replace n with (c + (n - c)) at 1 by lia. rewrite seq_app, map_app, qsum_app. reflexivity.
Qed.

(** Rows [c..] are solved by [xs = x[c..]]. *)
Definition tail_ok (len : nat) (s : lin) (c : nat) (xs : list Qc) : Prop :=
  length xs = len - c /\
  forall j, c <= j < len ->
    l_a s (row (l_ord s) j) j <> 0%Qc /\
    qsum (map (fun k => l_a s (row (l_ord s) j) k * nth (k - c) xs 0)%Qc (seq j (len - j))) = l_b s (row (l_ord s) j).

Lemma back_step_ok len s c xs : c < len -> tail_ok len s (S c) xs ->
  match back_step len s (Some xs) c with
  | Some ys => tail_ok len s c ys
  | None => l_a s (row (l_ord s) c) c = 0%Qc
  end.
Proof.
  intros Hc (L & T). cbn [back_step].
  destruct (qeqb_spec (l_a s (row (l_ord s) c) c) 0%Qc) as [E|N]; auto.
  set (x := ((_ - _) / _)%Qc). split; [cbn [length]; lia|].
  assert (SH : forall j k, S c <= j -> In k (seq j (len - j)) -> nth (k - c) (x :: xs) 0%Qc = nth (k - S c) xs 0%Qc).
  { intros j k Hj Hk. apply in_seq in Hk. replace (k - c) with (S (k - S c)) by lia. reflexivity. }
  intros j Hj. destruct (Nat.eq_dec j c) as [->|NE].
  - split; auto. replace (len - c) with (S (len - S c)) by lia.
    change (seq c (S (len - S c))) with (c :: seq (S c) (len - S c)). cbn [map]. 
    change (qsum (?a :: ?l)) with (a + qsum l)%Qc.
    replace (c - c) with 0 by lia. change (nth 0 (x :: xs) 0%Qc) with x.
    rewrite (qsum_ext _ (fun k => l_a s (row (l_ord s) c) k * nth (k - S c) xs 0)%Qc)
      by (intros k Hk; rewrite (SH (S c)) by auto; reflexivity).
    unfold x. rewrite Nat.add_1_r. field. auto.
  - destruct (T j ltac:(lia)) as (NZ & E). split; auto. rewrite <- E. apply qsum_ext.
    intros k Hk. rewrite (SH j) by (auto; lia). reflexivity.
Qed.

Lemma back_loop len s c : forall o, c <= len ->
  match o with Some xs => tail_ok len s c xs | None => exists i, i < len /\ l_a s (row (l_ord s) i) i = 0%Qc end ->
  match fold_left (back_step len s) (rev (seq 0 c)) o with
  | Some xs => tail_ok len s 0 xs
  | None => exists i, i < len /\ l_a s (row (l_ord s) i) i = 0%Qc
  end.
Proof.
  induction c as [|c IH]; intros o Hc H; [cbn; destruct o; auto|].
  rewrite rev_seq_S. cbn [fold_left]. apply IH; [lia|].
  destruct o as [xs|]; [|exact H].
  pose proof (back_step_ok len s c xs Hc H) as B. destruct (back_step len s (Some xs) c); auto.
  exists c. auto.
Qed.

Lemma back_spec len s : zeros len len s -> Permutation (l_ord s) (seq 0 len) ->
  match back len s with
  | Some xs => length xs = len /\ sols len s (fun k => nth k xs 0%Qc) /\ pivots len s
  | None => exists i, i < len /\ l_a s (row (l_ord s) i) i = 0%Qc
  end.
Proof.
  intros Z P. unfold back.
  pose proof (back_loop len s len (Some []) (le_n _)) as B.
  assert (T : tail_ok len s len []) by (split; [cbn; lia|intros; lia]).
  specialize (B T). destruct (fold_left _ _ _) as [xs|]; auto.
  destruct B as (L & T'). split; [lia|]. split.
  - apply sols_rows; auto. intros j Hj. destruct (T' j ltac:(lia)) as (_ & E). rewrite <- E.
    rewrite (qsum_seq_split _ j) by lia. rewrite (qsum_zero (fun k => _) (seq 0 j)).
    + rewrite Qcplus_0_l. apply qsum_ext. intros k _. rewrite Nat.sub_0_r. reflexivity.
    + intros k Hk. apply in_seq in Hk. rewrite (Z j k) by lia. ring.
  - intros k Hk. apply T'. lia.
Qed.

(** A triangular system with a missing pivot has a kernel. *)
Lemma triangular_kernel len s i : i < len -> zeros len i s -> pivots i s ->
  (forall j, i <= j < len -> l_a s (row (l_ord s) j) i = 0%Qc) ->
  exists v, length v = len /\ nth i v 0%Qc = 1%Qc /\
    forall j, j < len -> qsum (map (fun k => l_a s (row (l_ord s) j) k * nth k v 0)%Qc (seq 0 len)) = 0%Qc.
Proof.
  intros Hi Z PV E.
  (* solve the leading block for column i *)
  assert (K : forall c, c <= i -> exists v, length v = len - c /\ nth (i - c) v 0%Qc = 1%Qc /\
     (forall t, i - c < t -> nth t v 0%Qc = 0%Qc) /\
     forall j, c <= j < i -> qsum (map (fun k => l_a s (row (l_ord s) j) k * nth (k - c) v 0)%Qc (seq c (len - c))) = 0%Qc).
  { intros c Hc. remember (i - c) as d eqn:Hd. revert c Hc Hd. induction d as [|d IH]; intros c Hc Hd.
    - exists (1%Qc :: repeat 0%Qc (len - c - 1)). split; [cbn [length]; rewrite repeat_length; lia|].
      split; [reflexivity|]. split.
      + intros t Ht. destruct t; [lia|]. cbn [nth]. apply nth_repeat.
      + intros j Hj. lia.
    - destruct (IH (S c) ltac:(lia) ltac:(lia)) as (v & L & V1 & V0 & R).
      set (x := (- qsum (map (fun k => l_a s (row (l_ord s) c) k * nth (k - S c) v 0)%Qc (seq (S c) (len - S c))) / l_a s (row (l_ord s) c) c)%Qc).
      assert (SH : forall k, In k (seq (S c) (len - S c)) -> nth (k - c) (x :: v) 0%Qc = nth (k - S c) v 0%Qc).
      { intros k Hk. apply in_seq in Hk. replace (k - c) with (S (k - S c)) by lia. reflexivity. }
      assert (SP : forall j, qsum (map (fun k => l_a s (row (l_ord s) j) k * nth (k - c) (x :: v) 0)%Qc (seq c (len - c))) =
        (l_a s (row (l_ord s) j) c * x + qsum (map (fun k => l_a s (row (l_ord s) j) k * nth (k - S c) v 0)%Qc (seq (S c) (len - S c))))%Qc).
      { intros j. replace (len - c) with (S (len - S c)) by lia.
        change (seq c (S (len - S c))) with (c :: seq (S c) (len - S c)). cbn [map].
        change (qsum (?a :: ?l)) with (a + qsum l)%Qc.
        replace (c - c) with 0 by lia. change (nth 0 (x :: v) 0%Qc) with x. f_equal.
        apply qsum_ext. intros k Hk. now rewrite SH. }
      exists (x :: v). split; [cbn [length]; lia|]. split; [exact V1|]. split.
      + intros t Ht. destruct t; [lia|]. apply V0. lia.
      + intros j Hj. rewrite SP. destruct (Nat.eq_dec j c) as [->|NE].
        * unfold x. field. apply PV. lia.
        * rewrite R by lia. rewrite (Z j c) by lia. ring. }
  destruct (K 0 ltac:(lia)) as (v & L & V1 & V0 & R). rewrite Nat.sub_0_r in *.
  exists v. split; auto. split; auto. intros j Hj. destruct (Nat.lt_ge_cases j i) as [H|H].
  - etransitivity; [|apply (R j); lia]. apply qsum_ext. intros k _. rewrite Nat.sub_0_r. reflexivity.
  - apply qsum_zero. intros k Hk. apply in_seq in Hk. destruct (Nat.lt_trichotomy k i) as [C|[->|C]].
    + rewrite (Z j k) by lia. ring.
    + rewrite (E j) by lia. ring.
    + rewrite V0 by lia. ring.
Qed.

(** ** The theorem *)
Section Solve.
Variables (a : list (list Qc)) (ord : list nat) (b : list Qc).
Hypothesis HP : Permutation ord (seq 0 (length a)).
Let len := length a.
Let start (b : list Qc) := mkLin (fun r k => nth k (nth r a []) 0%Qc) (fun r => nth r b 0%Qc) ord.

Lemma sols_start bb x : length x = len ->
  sols len (start bb) (fun k => nth k x 0%Qc) <-> solves a bb x.
Proof.
  intros L. unfold sols, solves, row_times, entry. fold len. cbn [start l_a l_b]. intuition.
Qed.

(** Control flow does not look at the right-hand side. *)
Lemma reduce_rows_a n i x s1 s2 st : l_a s1 = l_a s2 -> l_ord s1 = l_ord s2 ->
  l_a (fold_left (reduce_row n i x) st s1) = l_a (fold_left (reduce_row n i x) st s2) /\
  l_ord (fold_left (reduce_row n i x) st s1) = l_ord (fold_left (reduce_row n i x) st s2).
Proof.
  revert s1 s2. induction st as [|j st IH]; intros s1 s2 A O; cbn [fold_left]; auto.
  apply IH; unfold reduce_row; cbn [l_a l_ord]; rewrite ?A, ?O; reflexivity.
Qed.

Definition same_a (o1 o2 : option lin) : Prop :=
  match o1, o2 with
  | Some s1, Some s2 => l_a s1 = l_a s2 /\ l_ord s1 = l_ord s2
  | None, None => True
  | _, _ => False
  end.

Lemma forward_step_a n i s1 s2 : l_a s1 = l_a s2 -> l_ord s1 = l_ord s2 ->
  same_a (forward_step n s1 i) (forward_step n s2 i).
Proof.
  intros A O. unfold forward_step. cbv zeta. rewrite A, O. cbn [l_a].
  destruct (_ && _); cbn; auto. apply reduce_rows_a; auto.
Qed.

Lemma forward_a n s1 s2 : l_a s1 = l_a s2 -> l_ord s1 = l_ord s2 ->
  same_a (forward n s1) (forward n s2).
Proof.
  intros A O. unfold forward.
  assert (G : forall l o1 o2, same_a o1 o2 ->
    same_a (fold_left (fun o i => match o with None => None | Some s => forward_step n s i end) l o1)
           (fold_left (fun o i => match o with None => None | Some s => forward_step n s i end) l o2)).
  { induction l as [|i l IH]; intros o1 o2 H; cbn [fold_left]; auto. apply IH.
    destruct o1, o2; cbn in H; try contradiction; auto. apply forward_step_a; apply H. }
  apply G. cbn. auto.
Qed.

Lemma kernel_of s i : Permutation (l_ord s) (seq 0 len) -> i < len -> zeros len i s -> pivots i s ->
  (forall j, i <= j < len -> l_a s (row (l_ord s) j) i = 0%Qc) ->
  (forall r, r < len -> l_b s r = 0%Qc) ->
  (forall x, sols len s x <-> sols len (start []) x) -> singular a.
Proof.
  intros P Hi Z V E B S0. destruct (triangular_kernel len s i Hi Z V E) as (v & L & V1 & R).
  exists v. split.
  - apply sols_start; auto. apply S0, sols_rows; auto. intros j Hj. rewrite R by auto.
    symmetry. apply B, row_lt; auto.
  - exists i. split; auto. rewrite V1. discriminate.
Qed.

Lemma solve_some x : solve a ord b = Some x -> solves a b x /\ ~ singular a.
Proof.
  unfold solve. fold len. fold (start b). rewrite forward_upto.
  pose proof (fwd_upto_spec len (start b) len HP (le_n _)) as F.
  destruct (fwd_upto len len (start b)) as [s|]; [|discriminate].
  destruct F as (P & Z & _ & _ & S0 & _). pose proof (back_spec len s Z P) as B.
  destruct (back len s) as [xs|]; [|discriminate]. destruct B as (L & S1 & V).
  intros [= <-]. split.
  - apply sols_start; auto. apply S0; auto.
  - (* with all pivots the homogeneous system has only the zero solution *)
    intros (v & (Lv & Hv) & k & Hk & NZ). apply NZ.
    assert (D : sols len s (fun j => (nth j xs 0 + nth j v 0)%Qc)).
    { apply S0. intros r Hr. cbn [start l_a l_b].
      rewrite (qsum_ext _ (fun k => (nth k (nth r a []) 0 * nth k xs 0 + nth k (nth r a []) 0 * nth k v 0)%Qc))
        by (intros; ring).
      rewrite qsum_map_add. assert (E := Hv r Hr). unfold row_times, entry in E. fold len in E. rewrite E.
      assert (E2 := proj1 (S0 _) S1 r Hr). cbn [start l_a l_b] in E2. rewrite E2. destruct r; cbn; ring. }
    (* rows from the bottom *)
    assert (U : forall d j, j < len -> len - 1 - j <= d -> nth j v 0%Qc = 0%Qc).
    { induction d as [|d IH]; intros j Hj Hd.
      - assert (j = len - 1) by lia. subst j.
        assert (E := proj1 (sols_rows len s _ P) D (len - 1) Hj).
        assert (E2 := proj1 (sols_rows len s _ P) S1 (len - 1) Hj).
        rewrite (qsum_ext _ (fun k => (l_a s (row (l_ord s) (len - 1)) k * nth k xs 0 + l_a s (row (l_ord s) (len - 1)) k * nth k v 0)%Qc)) in E by (intros; ring).
        rewrite qsum_map_add, E2 in E.
        assert (E3 : qsum (map (fun k => l_a s (row (l_ord s) (len - 1)) k * nth k v 0)%Qc (seq 0 len)) = 0%Qc).
        { transitivity (l_b s (row (l_ord s) (len - 1)) + qsum (map (fun k => l_a s (row (l_ord s) (len - 1)) k * nth k v 0)%Qc (seq 0 len)) - l_b s (row (l_ord s) (len - 1)))%Qc; [ring|rewrite E; ring]. }
        rewrite (qsum_single (fun k => l_a s (row (l_ord s) (len - 1)) k * nth k v 0)%Qc len (len - 1)) in E3; auto.
        + apply Qcmult_integral in E3 as [E3|E3]; auto. exfalso. now apply (V (len - 1)).
        + intros k0 Hk0 NE. rewrite (Z (len - 1) k0) by lia. ring.
      - assert (E := proj1 (sols_rows len s _ P) D j Hj).
        assert (E2 := proj1 (sols_rows len s _ P) S1 j Hj).
        rewrite (qsum_ext _ (fun k => (l_a s (row (l_ord s) j) k * nth k xs 0 + l_a s (row (l_ord s) j) k * nth k v 0)%Qc)) in E by (intros; ring).
        rewrite qsum_map_add, E2 in E.
        assert (E3 : qsum (map (fun k => l_a s (row (l_ord s) j) k * nth k v 0)%Qc (seq 0 len)) = 0%Qc).
        { transitivity (l_b s (row (l_ord s) j) + qsum (map (fun k => l_a s (row (l_ord s) j) k * nth k v 0)%Qc (seq 0 len)) - l_b s (row (l_ord s) j))%Qc; [ring|rewrite E; ring]. }
        rewrite (qsum_single (fun k => l_a s (row (l_ord s) j) k * nth k v 0)%Qc len j) in E3; auto.
        + apply Qcmult_integral in E3 as [E3|E3]; auto. exfalso. now apply (V j).
        + intros k0 Hk0 NE. destruct (Nat.lt_ge_cases k0 j).
          * rewrite (Z j k0) by lia. ring.
          * rewrite (IH k0) by lia. ring. }
    apply (U len k); auto. lia.
Qed.

Lemma solve_none : solve a ord b = None -> singular a.
Proof.
  unfold solve. fold len. fold (start b). intros H.
  pose proof (forward_a len (start b) (start []) eq_refl eq_refl) as FA.
  rewrite (forward_upto len (start [])) in FA.
  pose proof (fwd_upto_spec len (start []) len HP (le_n _)) as F.
  destruct (forward len (start b)) as [s1|]; destruct (fwd_upto len len (start [])) as [s|]; cbn in FA; try contradiction.
  - destruct FA as (Ea & Eo). destruct F as (P & Z & _ & V & S0 & B0).
    assert (Z1 : zeros len len s1) by (unfold zeros in *; rewrite Ea, Eo; auto).
    assert (P1 : Permutation (l_ord s1) (seq 0 len)) by now rewrite Eo.
    pose proof (back_spec len s1 Z1 P1) as B. rewrite H in B. destruct B as (i & Hi & E).
    rewrite Ea, Eo in E. assert (i = len - 1).
    { destruct (Nat.eq_dec i (len - 1)); auto. exfalso. apply (V i); [lia|auto]. }
    subst i. apply (kernel_of s (len - 1)); auto.
    + intros j k Hj Hk Hkj. apply Z; lia.
    + intros j Hj. replace j with (len - 1) by lia. auto.
    + apply B0. intros r _. cbn. destruct r; reflexivity.
  - destruct F as (s' & i & Hi & P & Z & V & E & S0 & B0). apply (kernel_of s' i); auto.
    apply B0. intros r _. cbn. destruct r; reflexivity.
Qed.
End Solve.

Lemma solve_spec a ord b : Permutation ord (seq 0 (length a)) ->
  match solve a ord b with
  | Some x => solves a b x /\ ~ singular a
  | None => singular a
  end.
Proof.
  intros P. destruct (solve a ord b) eqn:E.
  - eapply solve_some; eauto.
  - eapply solve_none; eauto.
Qed.

Lemma solve_regular a ord b : Permutation ord (seq 0 (length a)) -> ~ singular a ->
  exists x, solve a ord b = Some x /\ solves a b x.
Proof.
  intros P N. pose proof (solve_spec a ord b P) as H. destruct (solve a ord b) as [x|]; [|contradiction].
  exists x. split; [auto|apply H].
Qed.
