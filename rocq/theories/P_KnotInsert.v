(** Proofs about the knot insertion matrix. *)
From Coq Require Import List Arith Lia ZArith QArith Qcanon Permutation Sorted.
From Verif Require Import Base BaseRadix BaseQc BaseSort S_Grid M_Numpy M_Grid P_Grid
  S_Spline P_Basis P_Refine P_Spline M_KnotInsert S_KnotInsert.
Import ListNotations.
Local Open Scope Qc_scope.

(** Subsequences. *)
Inductive subseq {A} : list A -> list A -> Prop :=
| sub_nil : forall l, subseq [] l
| sub_take : forall x a b, subseq a b -> subseq (x :: a) (x :: b)
| sub_skip : forall x a b, subseq a b -> subseq a (x :: b).

Lemma subseq_refl {A} (l : list A) : subseq l l.
Proof. induction l; constructor; auto. Qed.
Lemma subseq_trans {A} (a b c : list A) : subseq a b -> subseq b c -> subseq a c.
Proof.
  intros H1 H2. revert a H1; induction H2; intros a0 H1.
  - inversion H1; subst. constructor.
  - inversion H1; subst; constructor; auto.
  - constructor; auto.
Qed.
Lemma subseq_qinsert x l : subseq l (qinsert x l).
Proof.
  induction l as [|y l IH]; cbn.
  - constructor.
  - destruct (qleb x y); [apply sub_skip, subseq_refl|]. now apply sub_take.
Qed.
Lemma subseq_length {A} (a b : list A) : subseq a b -> (length a <= length b)%nat.
Proof. induction 1; cbn; lia. Qed.

Lemma subseq_positions {A} (a b : list A) d :
  subseq a b -> exists f : nat -> nat,
    (forall i j, (i < j)%nat -> (j < length a)%nat -> (f i < f j)%nat) /\
    (forall i, (i < length a)%nat -> (f i < length b)%nat /\ nth (f i) b d = nth i a d).
Proof.
  induction 1 as [l|x a b H IH|x a b H IH].
  - exists (fun i => i). cbn. split; intros; lia.
  - destruct IH as (f & F1 & F2).
    exists (fun i => match i with O => O | S i => S (f i) end). split.
    + intros [|i] [|j] Hij Hj; cbn in *; try lia. specialize (F1 i j). lia.
    + intros [|i] Hi; cbn in *; [split; [lia|reflexivity]|].
      destruct (F2 i ltac:(lia)). split; [lia|auto].
  - destruct IH as (f & F1 & F2). exists (fun i => S (f i)). split.
    + intros i j Hij Hj. specialize (F1 i j Hij Hj). lia.
    + intros i Hi. cbn. destruct (F2 i Hi). split; [lia|auto].
Qed.

Lemma nd_sorted kv : non_decreasing kv <-> qsorted kv.
Proof.
  split.
  - intros H. apply (nth_sorted kv 0). exact H.
  - intros H i j. now apply sorted_nth.
Qed.

Lemma sorted_superset_subseq old ks new :
  qsorted old -> qsorted new -> Permutation new (old ++ ks) -> subseq old new.
Proof.
  intros So Sn P.
  assert (E : new = fold_right qinsert old ks).
  { apply sorted_perm_eq; auto.
    - clear -So. induction ks; cbn; auto. now apply qinsert_sorted.
    - rewrite P. clear. induction ks; cbn; [now rewrite app_nil_r|].
      rewrite qinsert_perm, <- IHks. symmetry. apply Permutation_middle. }
  subst new. clear. induction ks; cbn; [apply subseq_refl|].
  eapply subseq_trans; [exact IHks|apply subseq_qinsert].
Qed.

Lemma sub_refines old new :
  subseq old new -> old <> [] -> last new 0 = last old 0 ->
  exists phi, refines (kn old) (kn new) phi /\ phi (length old) = length new.
Proof.
  intros S Hne HL. pose proof (subseq_length _ _ S) as HL2.
  destruct (subseq_positions old new 0 S) as (f & F1 & F2).
  assert (0 < length old)%nat by (destruct old; [congruence|cbn; lia]).
  exists (fun k => if (k <? length old)%nat then f k else (k + (length new - length old))%nat).
  split; [split|].
  - intros a b Hab.
    destruct (Nat.ltb_spec a (length old)), (Nat.ltb_spec b (length old)); try lia.
    + apply F1; auto.
    + destruct (F2 a H0). lia.
  - intros k. destruct (Nat.ltb_spec k (length old)).
    + destruct (F2 k H0) as [Hf E].
      rewrite (kn_nth new (f k) 0), (kn_nth old k 0); auto.
    + unfold kn. rewrite !nth_overflow by lia. auto.
  - destruct (Nat.ltb_spec (length old) (length old)); lia.
Qed.

(** Merging *)
Lemma nth_skipn {A} (l : list A) i k d : nth k (skipn i l) d = nth (i + k) l d.
Proof.
  revert i; induction l; intros [|i]; cbn; auto. destruct k; auto.
Qed.
Lemma skipn_nth {A} (l : list A) i d : (i < length l)%nat -> skipn i l = nth i l d :: skipn (S i) l.
Proof.
  revert i; induction l; intros [|i] H; cbn in *; try lia; auto. apply IHl. lia.
Qed.

Lemma merge_loop_spec old new : forall fuel i j,
  fuel = (length old - i + (length new - j))%nat ->
  (i <= length old)%nat -> (j <= length new)%nat ->
  (i < length old \/ j = length new)%nat ->
  (forall x, In x new -> x < nth (length old - 1) old 0) ->
  qsorted old -> qsorted new ->
  exists l reads, merge_loop fuel i j old new = Some (l, reads) /\
    Permutation l (skipn i old ++ skipn j new) /\ qsorted l.
Proof.
  induction fuel as [|fuel IH]; intros i j Hf Hi Hj Hor Hlt So Sn.
  - exists [], []. cbn. assert (i = length old) as -> by lia. assert (j = length new) as -> by lia.
    rewrite !skipn_all. repeat split; auto. constructor.
  - cbn [merge_loop].
    destruct (le_lt_dec (length old) i) as [L|L].
    { lia. }
    rewrite (nth_error_nth' old 0 L).
    destruct (le_lt_dec (length new) j) as [Lj|Lj].
    + replace (nth_error new j) with (@None Qc) by (symmetry; now apply nth_error_None).
      replace (length new <=? j)%nat with true by (symmetry; now apply Nat.leb_le).
      cbn [orb snd fst].
      destruct (IH (S i) j) as (l & reads & E & P & S); auto; try lia.
      rewrite E. eexists _, _. split; [reflexivity|].
      rewrite (skipn_nth old i 0 L). split.
      * cbn. constructor. exact P.
      * constructor; auto. apply Forall_forall. intros x Hx.
        eapply Permutation_in in Hx; [|exact P].
        rewrite (skipn_all2 new) in Hx by lia. rewrite app_nil_r in Hx.
        destruct (In_nth _ _ 0 Hx) as (k & Hk & <-). rewrite nth_skipn, skipn_length in *.
        apply sorted_nth; auto; lia.
    + rewrite (nth_error_nth' new 0 Lj).
      replace (length new <=? j)%nat with false by (symmetry; apply Nat.leb_gt; lia).
      rewrite Bool.orb_false_r.
      destruct (qltb_spec (nth i old 0) (nth j new 0)) as [Hlt1|Hge]; cbn [snd fst].
      * assert (S i < length old)%nat.
        { destruct (Nat.eq_dec (S i) (length old)) as [E|]; [|lia].
          assert (nth j new 0 < nth (length old - 1) old 0) by (apply Hlt, nth_In; auto).
          replace (length old - 1)%nat with i in H by lia. exfalso. qlra. }
        destruct (IH (S i) j) as (l & reads & E & P & S); auto; try lia.
        rewrite E. eexists _, _. split; [reflexivity|].
        rewrite (skipn_nth old i 0 L). split.
        -- cbn. constructor. exact P.
        -- constructor; auto. apply Forall_forall. intros x Hx.
           eapply Permutation_in in Hx; [|exact P]. apply in_app_iff in Hx.
           destruct Hx as [Hx|Hx];
           destruct (In_nth _ _ 0 Hx) as (k & Hk & <-); rewrite nth_skipn, skipn_length in *.
           ++ apply sorted_nth; auto; lia.
           ++ pose proof (sorted_nth new j (j + k) 0 Sn ltac:(lia) ltac:(lia)). qlra.
      * destruct (IH i (S j)) as (l & reads & E & P & S); auto; try lia.
        rewrite E. eexists _, _. split; [reflexivity|].
        rewrite (skipn_nth new j 0 Lj). split.
        -- rewrite P. apply Permutation_middle.
        -- constructor; auto. apply Forall_forall. intros x Hx.
           eapply Permutation_in in Hx; [|exact P]. apply in_app_iff in Hx.
           destruct Hx as [Hx|Hx];
           destruct (In_nth _ _ 0 Hx) as (k & Hk & <-); rewrite nth_skipn, skipn_length in *.
           ++ pose proof (sorted_nth old i (i + k) 0 So ltac:(lia) ltac:(lia)). qlra.
           ++ apply sorted_nth; auto; lia.
Qed.

(** Knot span search *)
Lemma kv_get_nat kv c : (c < length kv)%nat -> kv_get kv (Z.of_nat c) = Some (nth c kv 0).
Proof.
  intros H. unfold kv_get. destruct (Z.ltb_spec (Z.of_nat c) 0); [lia|].
  rewrite Nat2Z.id. now apply nth_error_nth'.
Qed.

Lemma firstn_S_nth {A} (l : list A) m d :
  (m < length l)%nat -> firstn (S m) l = firstn m l ++ [nth m l d].
Proof.
  revert m; induction l; intros [|m] H; cbn in *; try lia; auto. f_equal. apply IHl. lia.
Qed.

Lemma in_firstn {A} (l : list A) m x d :
  In x (firstn m l) -> exists k, (k < m)%nat /\ (k < length l)%nat /\ x = nth k l d.
Proof.
  intros H. destruct (In_nth _ _ d H) as (k & Hk & <-). rewrite firstn_length in Hk.
  exists k. repeat split; try lia. clear H.
  revert m k Hk; induction l; intros [|m] [|k] Hk; cbn in *; try lia; auto. apply IHl. lia.
Qed.
Lemma firstn_in {A} (l : list A) m k d : (k < m)%nat -> (k < length l)%nat -> In (nth k l d) (firstn m l).
Proof.
  revert m k; induction l; intros [|m] [|k] H1 H2; cbn in *; try lia; auto. right. apply IHl; lia.
Qed.

Lemma span_loop_spec tol old new : forall m c kk sp,
  0 < tol -> separated tol old new -> qsorted old -> qsorted new ->
  (m <= length new)%nat -> (c <= sp)%nat -> (sp < length old)%nat ->
  Permutation (firstn m new) (firstn c old ++ kk) ->
  (forall x, In x kk -> nth 0 old 0 < x) -> nth 0 new 0 = nth 0 old 0 ->
  (forall k, (c <= k)%nat -> (k <= sp)%nat -> nth k old 0 = nth sp old 0) ->
  (S sp = length old \/ nth sp old 0 < nth (S sp) old 0) ->
  (forall x, In x (firstn m new) -> (S sp < length old)%nat -> x < nth (S sp) old 0) ->
  exists l, span_loop tol old (rev (firstn m new)) (Z.of_nat c - 1) (Z.of_nat sp) = Some l /\
    length l = m /\
    forall i, (i < m)%nat -> nth i new 0 < nth (length old - 1) old 0 ->
      exists mu, nth (m - 1 - i) l 0%Z = Z.of_nat mu /\ (S mu < length old)%nat /\
        nth mu old 0 <= nth i new 0 /\ nth i new 0 < nth (S mu) old 0.
Proof.
  induction m as [|m IH]; intros c kk sp Htol Hsep So Sn Hm Hc Hsp HP Hkk H0 Heq Hnext Hbnd.
  - exists []. cbn. repeat split; auto. intros; lia.
  - assert (Hmn : (m < length new)%nat) by lia.
    rewrite (firstn_S_nth new m 0 Hmn) in *. set (t := nth m new 0) in *.
    rewrite rev_app_distr. cbn [rev app span_loop].
    (* all knots seen are at most t *)
    assert (Hmax : forall x, In x (firstn m new ++ [t]) -> x <= t).
    { intros x Hx. rewrite in_app_iff in Hx. destruct Hx as [Hx|[<-|[]]]; [|apply Qcle_refl].
      apply (in_firstn _ _ _ 0) in Hx. destruct Hx as (k & Hk1 & Hk2 & ->).
      apply sorted_nth; auto; lia. }
    (* c is positive *)
    assert (Hc0 : (0 < c)%nat).
    { destruct c; [|lia]. exfalso. cbn in HP.
      assert (In (nth 0 new 0) kk).
      { eapply Permutation_in; [exact HP|]. unfold t. rewrite <- (firstn_S_nth new m 0 Hmn).
        apply firstn_in; lia. }
      apply Hkk in H. rewrite H0 in H. qlra. }
    destruct c as [|c]; [lia|]. clear Hc0.
    replace (Z.of_nat (S c) - 1)%Z with (Z.of_nat c) by lia.
    rewrite kv_get_nat by lia.
    set (o := nth c old 0).
    assert (Ho : o <= t).
    { apply Hmax. eapply Permutation_in; [symmetry; exact HP|]. apply in_app_iff. left.
      apply firstn_in; lia. }
    rewrite (firstn_S_nth old c 0) in HP by lia. fold o in HP.
    assert (Hin_t : In t new) by (apply nth_In; auto).
    assert (Hin_o : In o old) by (apply nth_In; lia).
    destruct (qltb_spec (qabs (o - t)) tol) as [Hclose|Hfar].
    + (* matched *)
      assert (o = t) as Eot.
      { destruct (Hsep o t Hin_o Hin_t) as [|Hf]; auto. exfalso. qlra. }
      replace (Z.of_nat c + 1)%Z with (Z.of_nat (S c)) by lia.
      rewrite kv_get_nat by lia.
      assert (HP' : Permutation (firstn m new) (firstn c old ++ kk)).
      { apply (Permutation_cons_inv (a := t)).
        transitivity (firstn m new ++ [t]); [apply Permutation_cons_append|].
        rewrite HP. rewrite Eot, <- app_assoc. cbn. symmetry. apply Permutation_middle. }
      set (sp' := if qltb o (nth (S c) old 0) then c else sp).
      assert (Esp' : (if qltb o (nth (S c) old 0) then Z.of_nat c else Z.of_nat sp) = Z.of_nat sp').
      { unfold sp'. destruct (qltb o _); auto. }
      rewrite Esp'.
      assert (Hsp' : (c <= sp')%nat /\ (sp' < length old)%nat).
      { unfold sp'. destruct (qltb o _); split; lia. }
      assert (Heq' : forall k, (c <= k)%nat -> (k <= sp')%nat -> nth k old 0 = nth sp' old 0).
      { unfold sp'. destruct (qltb_spec o (nth (S c) old 0)) as [L|L].
        - intros k K1 K2. replace k with c by lia. reflexivity.
        - intros k K1 K2. destruct (Nat.eq_dec k c) as [->|].
          + rewrite <- (Heq (S c)) by lia. apply Qcle_antisym.
            * apply sorted_nth; auto; lia.
            * fold o. qlra.
          + apply Heq; lia. }
      assert (Hnext' : S sp' = length old \/ nth sp' old 0 < nth (S sp') old 0).
      { unfold sp'. destruct (qltb_spec o (nth (S c) old 0)) as [L|L]; auto. }
      assert (Et : t = nth sp' old 0).
      { rewrite <- Eot. unfold o. apply Heq'; lia. }
      rewrite kv_get_nat by lia.
      destruct (IH c kk sp') as (l & El & Hl & Hspec); auto; try lia.
      { intros x Hx Hlt. destruct Hnext' as [|Hn]; [lia|].
        pose proof (Hmax x ltac:(apply in_app_iff; auto)). rewrite <- Et in Hn. qlra. }
      rewrite El. eexists. split; [reflexivity|]. split; [cbn; lia|].
      intros i Hi Hlast.
      destruct (Nat.eq_dec i m) as [->|].
      * replace (S m - 1 - m)%nat with 0%nat by lia. cbn [nth].
        destruct (qltb_spec t (nth sp' old 0)) as [L|L]; [exfalso; rewrite <- Et in L; qlra|].
        exists sp'. split; auto. fold t in Hlast |- *.
        destruct Hnext' as [E|Hn].
        { exfalso. replace (length old - 1)%nat with sp' in Hlast by lia. rewrite <- Et in Hlast. qlra. }
        assert (S sp' < length old)%nat.
        { destruct (le_lt_dec (length old) (S sp')); auto. exfalso.
          replace (length old - 1)%nat with sp' in Hlast by lia. rewrite <- Et in Hlast. qlra. }
        rewrite Et. repeat split; auto. apply Qcle_refl.
      * replace (S m - 1 - i)%nat with (S (m - 1 - i)) by lia. cbn [nth]. apply Hspec; auto. lia.
    + (* a new knot *)
      destruct (qltb_spec t o) as [L|_]; [exfalso; qlra|].
      assert (Hot : o <> t).
      { intros E. apply Hfar. rewrite E. replace (t - t) with 0 by ring.
        unfold qabs. destruct (Qclt_le_dec 0 0); auto. }
      assert (Hin : In t kk).
      { assert (Ht : In t ((firstn c old ++ [o]) ++ kk)).
        { eapply Permutation_in; [exact HP|]. apply in_app_iff. right. now left. }
        apply in_app_iff in Ht. destruct Ht as [Ht|]; auto. exfalso.
        unfold o in Ht. rewrite <- (firstn_S_nth old c 0) in Ht by lia.
        apply (in_firstn _ _ _ 0) in Ht. destruct Ht as (k & K1 & K2 & K3).
        assert (t <= o). { rewrite K3. apply sorted_nth; auto; lia. }
        apply Hot. apply Qcle_antisym; auto. }
      destruct (in_split _ _ Hin) as (k1 & k2 & ->).
      assert (HP' : Permutation (firstn m new) (firstn (S c) old ++ k1 ++ k2)).
      { apply (Permutation_cons_inv (a := t)).
        transitivity (firstn m new ++ [t]); [apply Permutation_cons_append|].
        transitivity ((firstn c old ++ [o]) ++ k1 ++ t :: k2); [exact HP|].
        rewrite (firstn_S_nth old c 0) by lia. fold o. set (A := firstn c old ++ [o]).
        rewrite !(app_assoc A). symmetry. apply Permutation_middle. }
      rewrite kv_get_nat by lia.
      destruct (IH (S c) (k1 ++ k2) sp) as (l & El & Hl & Hspec); auto; try lia.
      { intros x Hx. apply Hkk. apply in_app_iff in Hx. apply in_app_iff. cbn. tauto. }
      { intros x Hx. apply Hbnd. apply in_app_iff; auto. }
      replace (Z.of_nat (S c) - 1)%Z with (Z.of_nat c) in El by lia.
      rewrite El. eexists. split; [reflexivity|]. split; [cbn; lia|].
      intros i Hi Hlast.
      destruct (Nat.eq_dec i m) as [->|].
      * replace (S m - 1 - m)%nat with 0%nat by lia. cbn [nth]. fold t in Hlast |- *.
        destruct (qltb_spec t (nth sp old 0)) as [L|L].
        -- exists c. split; auto. split; [lia|]. split; auto.
           rewrite (Heq (S c)) by lia. auto.
        -- exists sp. split; auto.
           assert (S sp < length old)%nat.
           { destruct (le_lt_dec (length old) (S sp)); auto. exfalso.
             replace (length old - 1)%nat with sp in Hlast by lia. qlra. }
           split; auto. split; [qlra|]. apply Hbnd; auto. apply in_app_iff. right. now left.
      * replace (S m - 1 - i)%nat with (S (m - 1 - i)) by lia. cbn [nth]. apply Hspec; auto. lia.
Qed.

Lemma removelast_firstn_len' {A} (l : list A) : removelast l = firstn (length l - 1) l.
Proof.
  induction l as [|a l IH]; auto. cbn [removelast length].
  replace (S (length l) - 1)%nat with (length l) by lia.
  destruct l as [|b l]; auto. rewrite IH. cbn [length firstn].
  replace (S (length l) - 1)%nat with (length l) by lia. reflexivity.
Qed.

Lemma last_perm old ks new :
  old <> [] -> qsorted old -> qsorted new -> Permutation new (old ++ ks) ->
  (forall x, In x ks -> x < nth (length old - 1) old 0) ->
  nth (length new - 1) new 0 = nth (length old - 1) old 0.
Proof.
  intros Hne So Sn P H.
  assert (Hol : (0 < length old)%nat) by (destruct old; [congruence|cbn; lia]).
  assert (Hl : length new = (length old + length ks)%nat)
    by (rewrite (Permutation_length P), app_length; auto).
  apply Qcle_antisym.
  - assert (Hin : In (nth (length new - 1) new 0) (old ++ ks)).
    { eapply Permutation_in; [exact P|]. apply nth_In. lia. }
    apply in_app_iff in Hin. destruct Hin as [Hin|Hin].
    + destruct (In_nth _ _ 0 Hin) as (k & Hk & <-). apply sorted_nth; auto; lia.
    + apply Qclt_le_weak, H, Hin.
  - assert (Hin : In (nth (length old - 1) old 0) new).
    { eapply Permutation_in; [symmetry; exact P|]. apply in_app_iff. left. apply nth_In. lia. }
    destruct (In_nth _ _ 0 Hin) as (k & Hk & <-). apply sorted_nth; auto; lia.
Qed.

Lemma first_perm old ks new :
  old <> [] -> qsorted old -> qsorted new -> Permutation new (old ++ ks) ->
  (forall x, In x ks -> nth 0 old 0 < x) ->
  nth 0 new 0 = nth 0 old 0.
Proof.
  intros Hne So Sn P H.
  assert (Hol : (0 < length old)%nat) by (destruct old; [congruence|cbn; lia]).
  assert (Hl : length new = (length old + length ks)%nat)
    by (rewrite (Permutation_length P), app_length; auto).
  apply Qcle_antisym.
  - assert (Hin : In (nth 0 old 0) new).
    { eapply Permutation_in; [symmetry; exact P|]. apply in_app_iff. left. apply nth_In. lia. }
    destruct (In_nth _ _ 0 Hin) as (k & Hk & <-). apply sorted_nth; auto; lia.
  - assert (Hin : In (nth 0 new 0) (old ++ ks)).
    { eapply Permutation_in; [exact P|]. apply nth_In. lia. }
    apply in_app_iff in Hin. destruct Hin as [Hin|Hin].
    + destruct (In_nth _ _ 0 Hin) as (k & Hk & <-). apply sorted_nth; auto; lia.
    + apply Qclt_le_weak, H, Hin.
Qed.

Lemma knot_span_bases_spec tol old ks new :
  0 < tol -> separated tol old new -> old <> [] -> qsorted old -> qsorted new ->
  Permutation new (old ++ ks) ->
  (forall x, In x ks -> nth 0 old 0 < x /\ x < nth (length old - 1) old 0) ->
  exists mus, knot_span_bases tol old new = Some mus /\
    forall i, (i < length new)%nat -> nth i new 0 < nth (length old - 1) old 0 ->
      exists mu, nth i mus 0%Z = Z.of_nat mu /\ (S mu < length old)%nat /\
        nth mu old 0 <= nth i new 0 /\ nth i new 0 < nth (S mu) old 0.
Proof.
  intros Htol Hsep Hne So Sn P Hks.
  assert (Hol : (0 < length old)%nat) by (destruct old; [congruence|cbn; lia]).
  assert (Hl : length new = (length old + length ks)%nat)
    by (rewrite (Permutation_length P), app_length; auto).
  assert (HL : nth (length new - 1) new 0 = nth (length old - 1) old 0)
    by (apply (last_perm old ks new); auto; intros; apply Hks; auto).
  assert (HF : nth 0 new 0 = nth 0 old 0)
    by (apply (first_perm old ks new); auto; intros; apply Hks; auto).
  unfold knot_span_bases. rewrite removelast_firstn_len'.
  assert (HP : Permutation (firstn (length new - 1) new) (firstn (length old - 1) old ++ ks)).
  { apply (Permutation_cons_inv (a := nth (length new - 1) new 0)).
    transitivity (firstn (length new - 1) new ++ [nth (length new - 1) new 0]);
      [apply Permutation_cons_append|].
    rewrite <- firstn_S_nth by lia. replace (S (length new - 1)) with (length new) by lia.
    rewrite firstn_all, HL. transitivity (old ++ ks); [exact P|].
    transitivity ((firstn (length old - 1) old ++ [nth (length old - 1) old 0]) ++ ks).
    - rewrite <- firstn_S_nth by lia. replace (S (length old - 1)) with (length old) by lia.
      now rewrite firstn_all.
    - rewrite <- app_assoc. cbn. symmetry. apply Permutation_middle. }
  destruct (span_loop_spec tol old new (length new - 1) (length old - 1) ks (length old - 1))
    as (l & El & Hlen & Hspec); auto; try lia; try (left; lia).
  - intros x Hx. now apply Hks.
  - intros k K1 K2. f_equal. lia.
  - replace (Z.of_nat (length old) - 2)%Z with (Z.of_nat (length old - 1) - 1)%Z by lia.
    replace (Z.of_nat (length old) - 1)%Z with (Z.of_nat (length old - 1)) by lia.
    rewrite El. eexists. split; [reflexivity|].
    intros i Hi Hlt.
    assert (i < length new - 1)%nat.
    { destruct (Nat.eq_dec i (length new - 1)) as [->|]; [|lia]. exfalso. rewrite HL in Hlt. qlra. }
    destruct (Hspec i H Hlt) as (mu & Emu & R). exists mu. split; auto.
    rewrite rev_nth by lia. rewrite Hlen.
    replace (length new - 1 - S i)%nat with (length new - 1 - 1 - i)%nat by lia. exact Emu.
Qed.

(** Rows *)
Lemma inner_loop_spec R q v k :
  inner_loop R q v k =
  if ((0 <? k) && (k <=? q))%nat%bool then v (k - 1)%nat * R (k - 1)%nat k + v k * R k k else v k.
Proof.
  revert v; induction q as [|q IH]; intros v; cbn [inner_loop].
  - destruct (Nat.ltb_spec 0 k), (Nat.leb_spec k 0); cbn; auto; lia.
  - rewrite IH. unfold upd.
    destruct (Nat.ltb_spec 0 k), (Nat.leb_spec k q), (Nat.leb_spec k (S q)); cbn; try lia; auto.
    + destruct (Nat.eqb_spec (k - 1) (S q)), (Nat.eqb_spec k (S q)); try lia; auto.
    + destruct (Nat.eqb_spec k (S q)); [|lia]. subst.
      replace (S q - 1)%nat with q by lia. reflexivity.
    + destruct (Nat.eqb_spec k (S q)); [lia|auto].
    + destruct (Nat.eqb_spec k (S q)); [lia|auto].
Qed.

Definition level (old new : list Qc) (i mu d q : nat) : Qc :=
  if (q <=? d)%nat then blossom (kn old) mu (args (kn new) i d) (mu - d + q) else 0.

Lemma r_diag old t mu d q :
  (mu + 1 + q < length old)%nat ->
  r_matrix old t mu d q q = (kn old (mu + 1 + q)%nat - t) /
     (kn old (mu + 1 + q)%nat - kn old (mu + 1 + q - d)%nat).
Proof.
  intros H. unfold r_matrix.
  destruct (Nat.ltb_spec q q), (Nat.ltb_spec (q + 1) q); try lia. cbn [orb].
  rewrite Nat.eqb_refl, !(kn_nth old _ 0) by lia. reflexivity.
Qed.
Lemma r_off old t mu d q :
  (mu + 1 + q < length old)%nat ->
  r_matrix old t mu d q (q + 1) = (t - kn old (mu + 1 + q - d)%nat) /
     (kn old (mu + 1 + q)%nat - kn old (mu + 1 + q - d)%nat).
Proof.
  intros H. unfold r_matrix.
  destruct (Nat.ltb_spec (q + 1) q), (Nat.ltb_spec (q + 1) (q + 1)); try lia. cbn [orb].
  destruct (Nat.eqb_spec (q + 1) q); [lia|].
  rewrite !(kn_nth old _ 0) by lia. reflexivity.
Qed.

Lemma degree_step_level old new i mu d v :
  (1 <= d)%nat -> (S d <= mu)%nat -> (mu + S d < length old)%nat -> (i + S d < length new)%nat ->
  (forall q, v q = level old new i mu d q) ->
  forall q, degree_step (r_matrix old (nth (i + S d) new 0) mu (S d)) (S d) v q
            = level old new i mu (S d) q.
Proof.
  intros Hd Hmu Ho Hn Hv q. unfold degree_step.
  rewrite <- (kn_nth new (i + S d) 0) by lia. set (t := kn new (i + S d)).
  replace (S d - 1)%nat with d by lia.
  set (R := r_matrix old t mu (S d)).
  unfold upd at 1. rewrite !inner_loop_spec.
  assert (HB : forall k, blossom (kn old) mu (args (kn new) i (S d)) k =
     (t - kn old k) / (kn old (k + S d)%nat - kn old k) * blossom (kn old) mu (args (kn new) i d) k
     + (kn old (k + d + 2)%nat - t) / (kn old (k + d + 2)%nat - kn old (k + 1)%nat)
       * blossom (kn old) mu (args (kn new) i d) (k + 1)).
  { intros k. rewrite args_S. cbn [blossom]. rewrite length_args. reflexivity. }
  destruct (Nat.eqb_spec q 0) as [->|Hq0].
  - destruct (Nat.ltb_spec 0 0); [lia|]. cbn [andb]. unfold upd. cbn [Nat.eqb].
    rewrite Hv. unfold level. cbn [Nat.leb]. rewrite HB.
    unfold R. rewrite r_diag by lia.
    rewrite (blossom_left (kn old) mu _ (mu - S d + 0)) by (rewrite length_args; lia).
    replace (mu - S d + 0 + 1)%nat with (mu - d + 0)%nat by lia.
    replace (mu - S d + 0 + d + 2)%nat with (mu + 1 + 0)%nat by lia.
    replace (mu + 1 + 0 - S d)%nat with (mu - d + 0)%nat by lia. ring.
  - destruct (Nat.ltb_spec 0 q); [|lia]. cbn [andb].
    destruct (Nat.leb_spec q d) as [L|L].
    + unfold upd. destruct (Nat.eqb_spec (q - 1) (S d)), (Nat.eqb_spec q (S d)); try lia.
      rewrite !Hv. unfold level.
      destruct (Nat.leb_spec (q - 1) d), (Nat.leb_spec q d), (Nat.leb_spec q (S d)); try lia.
      rewrite HB. unfold R. rewrite r_diag by lia.
      replace q with (q - 1 + 1)%nat at 3 by lia. rewrite r_off by lia.
      replace (mu + 1 + (q - 1) - S d)%nat with (mu - S d + q)%nat by lia.
      replace (mu + 1 + (q - 1))%nat with (mu - S d + q + S d)%nat by lia.
      replace (mu + 1 + q - S d)%nat with (mu - S d + q + 1)%nat by lia.
      replace (mu + 1 + q)%nat with (mu - S d + q + d + 2)%nat by lia.
      replace (mu - d + (q - 1))%nat with (mu - S d + q)%nat by lia.
      replace (mu - d + q)%nat with (mu - S d + q + 1)%nat by lia. ring.
    + unfold upd. destruct (Nat.eqb_spec q (S d)) as [->|].
      * rewrite Hv. unfold level. rewrite !Nat.leb_refl, HB.
        rewrite (blossom_right (kn old) mu _ (mu - S d + S d + 1)) by lia.
        unfold R. replace (S d) with (d + 1)%nat at 2 by lia. rewrite r_off by lia.
        replace (mu + 1 + d - S d)%nat with (mu - S d + S d)%nat by lia.
        replace (mu + 1 + d)%nat with (mu - S d + S d + S d)%nat by lia.
        replace (mu - d + d)%nat with (mu - S d + S d)%nat by lia. ring.
      * rewrite Hv. unfold level. destruct (Nat.leb_spec q d), (Nat.leb_spec q (S d)); try lia.
        reflexivity.
Qed.

Lemma row_values_spec old new degree i mu q :
  (1 <= degree)%nat -> (degree <= mu)%nat -> (mu + degree < length old)%nat ->
  (i + degree < length new)%nat ->
  row_values old new degree i mu q = level old new i mu degree q.
Proof.
  intros Hp Hmu Ho Hn. unfold row_values.
  set (v1 := upd (upd (fun _ => 0) 0 _) 1 _).
  assert (H1 : forall q, v1 q = level old new i mu 1 q).
  { intros q'. unfold v1, upd, level.
    assert (HB : forall k, blossom (kn old) mu (args (kn new) i 1) k =
       (kn new (i + 1)%nat - kn old k) / (kn old (k + 1)%nat - kn old k) * (if Nat.eqb k mu then 1 else 0)
       + (kn old (k + 2)%nat - kn new (i + 1)%nat) / (kn old (k + 2)%nat - kn old (k + 1)%nat)
         * (if Nat.eqb (k + 1) mu then 1 else 0)).
    { intros k. cbn. replace (k + 0 + 2)%nat with (k + 2)%nat by lia. reflexivity. }
    rewrite <- (kn_nth new (i + 1) 0) by lia.
    destruct q' as [|[|q']].
    - cbn [Nat.eqb Nat.leb]. rewrite r_diag by lia. rewrite HB.
      destruct (Nat.eqb_spec (mu - 1 + 0) mu), (Nat.eqb_spec (mu - 1 + 0 + 1) mu); try lia.
      replace (mu - 1 + 0 + 2)%nat with (mu + 1 + 0)%nat by lia.
      replace (mu - 1 + 0 + 1)%nat with (mu + 1 + 0 - 1)%nat by lia. ring.
    - cbn [Nat.eqb Nat.leb]. change 1%nat with (0 + 1)%nat at 3. rewrite r_off by lia. rewrite HB.
      destruct (Nat.eqb_spec (mu - 1 + 1) mu), (Nat.eqb_spec (mu - 1 + 1 + 1) mu); try lia.
      replace (mu + 1 + 0 - 1)%nat with (mu - 1 + 1)%nat by lia.
      replace (mu - 1 + 1 + 1)%nat with (mu + 1 + 0)%nat by lia. ring.
    - reflexivity. }
  assert (G : forall m, (1 + m <= degree)%nat -> forall q,
     fold_left (fun v d => degree_step (r_matrix old (nth (i + d) new 0) mu d) d v) (seq 2 m) v1 q
     = level old new i mu (1 + m) q).
  { induction m as [|m IH]; intros Hm q'.
    - cbn. apply H1.
    - rewrite seq_S, fold_left_app. cbn [fold_left].
      replace (2 + m)%nat with (S (1 + m)) by lia.
      rewrite (degree_step_level old new i mu (1 + m)); auto; try lia.
      apply IH. lia. }
  replace degree with (1 + (degree - 1))%nat at 2 by lia. rewrite <- G by lia.
  reflexivity.
Qed.
