(** Proofs about the search for interfaces. *)
From Coq Require Import List Arith ZArith Znumtheory Bool QArith Qcanon Lia Sorted.
From Verif Require Import Base BaseQc M_Knots M_Threads P_Insert M_Interfaces S_Interfaces.
Import ListNotations.
Local Open Scope nat_scope.

(** * The sweep over an abstract symmetric relation *)
Section Sweep.
Variable R : nat -> nat -> bool.
Hypothesis Rsym : forall i j, R i j = R j i.

Fixpoint sweep (order : list nat) (conn : list Z) : option (list Z) :=
  match order with
  | [] => Some conn
  | lo :: rest =>
      match find (R lo) rest with
      | Some up =>
          if (nth lo conn 0 =? -2)%Z
          then sweep rest (set_nth (set_nth conn lo (Z.of_nat up)) up (Z.of_nat lo))
          else None
      | None => sweep rest (if (nth lo conn 0 =? -2)%Z then set_nth conn lo (-1)%Z else conn)
      end
  end.

Definition bounded n (l : list nat) := forall i, In i l -> i < n.

Lemma bounded_cons n i l : bounded n (i :: l) -> i < n /\ bounded n l.
Proof. intros H. split; [apply H; now left|]. intros j Hj. apply H. now right. Qed.

(** ** Every entry is sound *)
Definition entry_ok (n i : nat) (v : Z) : Prop :=
  v = (-1)%Z \/ exists j, v = Z.of_nat j /\ j < n /\ R i j = true /\ i <> j.

Lemma sweep_sound n order conn conn' :
  length conn = n -> bounded n order -> NoDup order ->
  (forall i, i < n -> entry_ok n i (nth i conn 0%Z) \/ (nth i conn 0 = -2)%Z /\ In i order) ->
  sweep order conn = Some conn' ->
  length conn' = n /\ forall i, i < n -> entry_ok n i (nth i conn' 0%Z).
Proof.
  revert conn. induction order as [|lo rest IH]; intros conn L B ND Inv E; cbn in E.
  - injection E as <-. split; [exact L|]. intros i Hi. destruct (Inv i Hi) as [|[_ []]]; auto.
  - apply bounded_cons in B. destruct B as [Bl Br]. inversion ND as [|? ? N1 N2]; subst.
    destruct (find (R lo) rest) as [up|] eqn:F.
    + apply find_some in F. destruct F as [Fin FR].
      assert (Hup : up < length conn) by (apply Br, Fin).
      assert (Ne : lo <> up) by (intros ->; contradiction).
      destruct (Z.eqb_spec (nth lo conn 0%Z) (-2)) as [E2|]; [|discriminate].
      apply IH in E; auto; [rewrite !set_nth_length; auto|].
      intros i Hi. rewrite set_nth_nth by now rewrite set_nth_length.
      destruct (Nat.eqb_spec i up) as [->|Hu].
      { left. right. exists lo. rewrite Rsym. auto. }
      rewrite set_nth_nth by exact Bl.
      destruct (Nat.eqb_spec i lo) as [->|Hl].
      { left. right. exists up. auto. }
      destruct (Inv i Hi) as [|[A [C|C]]]; auto. congruence.
    + apply IH in E; auto.
      * destruct (_ =? _)%Z; auto. apply set_nth_length.
      * intros i Hi. destruct (Z.eqb_spec (nth lo conn 0%Z) (-2)) as [E2|E2].
        -- rewrite set_nth_nth by exact Bl. destruct (Nat.eqb_spec i lo) as [->|Hl].
           ++ left. now left.
           ++ destruct (Inv i Hi) as [|[A [C|C]]]; auto. congruence.
        -- destruct (Inv i Hi) as [|[A [C|C]]]; auto. congruence.
Qed.

(** ** At most one partner each: the matching is found *)
Definition partner i j := R i j = true /\ i <> j.

Lemma sweep_matching n order before conn :
  length conn = n -> bounded n order -> bounded n before -> NoDup (before ++ order) ->
  (forall i, i < n -> In i (before ++ order)) ->
  (forall i j k, i < n -> j < n -> k < n -> partner i j -> partner i k -> j = k) ->
  (forall i, In i order ->
     (nth i conn 0 = -2)%Z /\ (forall j, In j before -> ~ partner i j) \/
     exists j, nth i conn 0%Z = Z.of_nat j /\ In j before /\ partner i j /\ nth j conn 0%Z = Z.of_nat i) ->
  (forall i, In i before ->
     (nth i conn 0 = -1)%Z /\ (forall j, j < n -> ~ partner i j) \/
     exists j, j < n /\ nth i conn 0%Z = Z.of_nat j /\ partner i j /\ nth j conn 0%Z = Z.of_nat i) ->
  exists conn', sweep order conn = Some conn' /\ length conn' = n /\
    forall i, i < n ->
     (nth i conn' 0 = -1)%Z /\ (forall j, j < n -> ~ partner i j) \/
     exists j, j < n /\ nth i conn' 0%Z = Z.of_nat j /\ partner i j /\ nth j conn' 0%Z = Z.of_nat i.
Proof.
  revert before conn. induction order as [|lo rest IH]; intros before conn L B Bb ND Cov Uni I1 I2.
  - exists conn. cbn. refine (conj eq_refl (conj L _)). intros i Hi. apply I2.
    specialize (Cov i Hi). now rewrite app_nil_r in Cov.
  - apply bounded_cons in B. destruct B as [Bl Br]. cbn [sweep].
    assert (Nlo : ~ In lo (before ++ rest)) by (apply NoDup_remove in ND; tauto).
    rewrite in_app_iff in Nlo.
    assert (ND' : NoDup ((before ++ [lo]) ++ rest)) by (rewrite <- app_assoc; exact ND).
    assert (Cov' : forall i, i < n -> In i ((before ++ [lo]) ++ rest))
      by (intros i Hi; rewrite <- app_assoc; exact (Cov i Hi)).
    assert (Bb' : bounded n (before ++ [lo])).
    { intros i Hi. apply in_app_iff in Hi. destruct Hi as [Hi|[<-|[]]]; auto. }
    assert (Dis : forall i, In i before -> ~ In i rest).
    { apply NoDup_app_iff in ND. destruct ND as [_ [_ D]]. intros i Hi Hr. apply (D i Hi). now right. }
    pose proof (I1 lo (or_introl eq_refl)) as Ilo.
    destruct (find (R lo) rest) as [up|] eqn:F.
    + apply find_some in F. destruct F as [Fin FR].
      assert (Hup : up < n) by (apply Br, Fin).
      assert (Ne : lo <> up) by (intros ->; tauto).
      assert (P : partner lo up) by now split.
      assert (P' : partner up lo) by (split; [now rewrite Rsym|auto]).
      destruct Ilo as [[E2 _]|[j [E [Hj [Pj _]]]]].
      2:{ exfalso. assert (j = up) by (apply (Uni lo); auto). subst j. exact (Dis up Hj Fin). }
      rewrite E2. cbn [Z.eqb Pos.eqb].
      set (c2 := set_nth _ up _).
      assert (Nth : forall i, nth i c2 0%Z =
                if i =? up then Z.of_nat lo else if i =? lo then Z.of_nat up else nth i conn 0%Z).
      { intros i. unfold c2. rewrite set_nth_nth by (rewrite set_nth_length; lia).
        destruct (i =? up); auto. apply set_nth_nth. lia. }
      apply (IH (before ++ [lo]) c2); auto.
      * unfold c2. now rewrite !set_nth_length.
      * intros i Hi. destruct (Nat.eq_dec i up) as [->|Hu].
        { right. exists lo. rewrite !Nth, Nat.eqb_refl.
          destruct (Nat.eqb_spec lo up); [congruence|]. rewrite Nat.eqb_refl.
          refine (conj eq_refl (conj _ (conj P' eq_refl))). apply in_app_iff. right. now left. }
        assert (Hil : i <> lo) by (intros ->; tauto).
        destruct (I1 i (or_intror Hi)) as [[E N]|[j [E [Hj [Pj Bj]]]]].
        -- left. rewrite Nth. destruct (Nat.eqb_spec i up); [tauto|]. destruct (Nat.eqb_spec i lo); [tauto|].
           split; auto. intros j Hj Pj. apply in_app_iff in Hj. destruct Hj as [Hj|[<-|[]]].
           ++ exact (N j Hj Pj).
           ++ apply Hu. apply (Uni lo); auto. destruct Pj as [Pj1 Pj2]. split; [now rewrite Rsym|auto].
        -- right. exists j. rewrite !Nth. destruct (Nat.eqb_spec i up); [tauto|]. destruct (Nat.eqb_spec i lo); [tauto|].
           destruct (Nat.eqb_spec j up) as [->|]; [exfalso; exact (Dis up Hj Fin)|].
           destruct (Nat.eqb_spec j lo) as [->|]; [tauto|].
           refine (conj E (conj _ (conj Pj Bj))). apply in_app_iff. now left.
      * intros i Hi. apply in_app_iff in Hi. destruct Hi as [Hi|[<-|[]]].
        -- assert (i <> up) by (intros ->; exact (Dis up Hi Fin)).
           assert (i <> lo) by (intros ->; tauto).
           destruct (I2 i Hi) as [[E N]|[j [Hj [E [Pj Bj]]]]].
           ++ left. rewrite Nth. destruct (Nat.eqb_spec i up); [tauto|]. destruct (Nat.eqb_spec i lo); [tauto|]. auto.
           ++ right. exists j. rewrite !Nth. destruct (Nat.eqb_spec i up); [tauto|]. destruct (Nat.eqb_spec i lo); [tauto|].
              destruct (Nat.eqb_spec j up) as [->|].
              { exfalso. apply H0. apply (Uni up); auto. destruct Pj as [Pj1 Pj2]. split; [now rewrite Rsym|auto]. }
              destruct (Nat.eqb_spec j lo) as [->|].
              { exfalso. apply H. apply (Uni lo); auto. destruct Pj as [Pj1 Pj2]. split; [now rewrite Rsym|auto]. }
              auto.
        -- right. exists up. rewrite !Nth, Nat.eqb_refl. destruct (Nat.eqb_spec lo up); [congruence|].
           rewrite Nat.eqb_refl. auto.
    + assert (NoR : forall j, In j rest -> R lo j = false) by (intros j Hj; exact (find_none _ _ F j Hj)).
      set (c2 := if (_ =? _)%Z then _ else _).
      assert (Nth : forall i, i <> lo -> nth i c2 0%Z = nth i conn 0%Z).
      { intros i Hi. unfold c2. destruct (_ =? _)%Z; auto. rewrite set_nth_nth by lia.
        destruct (Nat.eqb_spec i lo); tauto. }
      apply (IH (before ++ [lo]) c2); auto.
      * unfold c2. destruct (_ =? _)%Z; auto. now rewrite set_nth_length.
      * intros i Hi. assert (Hil : i <> lo) by (intros ->; tauto). rewrite (Nth i Hil).
        destruct (I1 i (or_intror Hi)) as [[E N]|[j [E [Hj [Pj Bj]]]]].
        -- left. split; auto. intros j Hj Pj. apply in_app_iff in Hj. destruct Hj as [Hj|[<-|[]]].
           ++ exact (N j Hj Pj).
           ++ destruct Pj as [Pj _]. rewrite Rsym, (NoR i Hi) in Pj. discriminate.
        -- right. exists j. rewrite Nth by (intros ->; tauto).
           refine (conj E (conj _ (conj Pj Bj))). apply in_app_iff. now left.
      * intros i Hi. apply in_app_iff in Hi. destruct Hi as [Hi|[<-|[]]].
        -- assert (Hil : i <> lo) by (intros ->; tauto). rewrite (Nth i Hil).
           destruct (I2 i Hi) as [[E N]|[j [Hj [E [Pj Bj]]]]]; [now left|].
           destruct (Nat.eq_dec j lo) as [->|Hjl].
           2:{ right. exists j. now rewrite (Nth j Hjl). }
           right. exists lo. repeat (split; auto).
           unfold c2. rewrite Bj. destruct (Z.eqb_spec (Z.of_nat i) (-2)); [lia|auto].
        -- destruct Ilo as [[E N]|[j [E [Hj [Pj Bj]]]]].
           ++ left. unfold c2. rewrite E. cbn [Z.eqb Pos.eqb]. rewrite set_nth_nth by lia. rewrite Nat.eqb_refl.
              split; auto. intros j Hj [Pj Pn]. specialize (Cov j Hj). apply in_app_iff in Cov.
              destruct Cov as [C|[C|C]]; [exact (N j C (conj Pj Pn))|tauto|].
              rewrite (NoR j C) in Pj. discriminate.
           ++ right. exists j. rewrite (Nth j) by (intros ->; tauto).
              unfold c2. rewrite E. destruct (Z.eqb_spec (Z.of_nat j) (-2)); [lia|].
              refine (conj (Bb j Hj) (conj E (conj Pj Bj))).
Qed.

(** ** Conflicts *)
Lemma sweep_taken l1 u l2 v conn :
  (nth u conn 0 <> -2)%Z -> ~ In u l1 -> bounded (length conn) (l1 ++ u :: l2) ->
  In v l2 -> R u v = true -> sweep (l1 ++ u :: l2) conn = None.
Proof.
  revert conn. induction l1 as [|a l1 IH]; intros conn C N B V HR; cbn [app sweep].
  - destruct (find (R u) l2) as [w|] eqn:F.
    + destruct (Z.eqb_spec (nth u conn 0%Z) (-2)); [tauto|reflexivity].
    + rewrite (find_none _ _ F v V) in HR. discriminate.
  - cbn [app] in B. apply bounded_cons in B. destruct B as [Ba Br].
    assert (a <> u) by (intros ->; apply N; now left).
    assert (N' : ~ In u l1) by (intros Hn; apply N; now right).
    destruct (find (R a) (l1 ++ u :: l2)) as [w|] eqn:F.
    + apply find_some in F. destruct F as [Fin _].
      destruct (Z.eqb_spec (nth a conn 0%Z) (-2)); [|reflexivity].
      apply IH; auto.
      * rewrite set_nth_nth by (rewrite set_nth_length; auto).
        destruct (Nat.eqb_spec u w); [lia|]. rewrite set_nth_nth by exact Ba.
        destruct (Nat.eqb_spec u a); [congruence|exact C].
      * now rewrite !set_nth_length.
    + apply IH; auto.
      * destruct (_ =? _)%Z; auto. rewrite set_nth_nth by exact Ba. destruct (Nat.eqb_spec u a); [congruence|exact C].
      * destruct (_ =? _)%Z; auto. now rewrite set_nth_length.
Qed.

Lemma sweep_crowded l1 a l2 b c conn :
  NoDup (l1 ++ a :: l2) -> bounded (length conn) (l1 ++ a :: l2) ->
  In b l2 -> In c l2 -> b <> c ->
  R a b = true -> R a c = true ->
  (forall u v, In u l2 -> In v l2 -> u <> v -> R a u = true -> R a v = true -> R u v = true) ->
  sweep (l1 ++ a :: l2) conn = None.
Proof.
  revert conn. induction l1 as [|x l1 IH]; intros conn ND B Hb Hc Ne Rb Rc T; cbn [app sweep].
  - inversion ND as [|? ? N1 N2]; subst. cbn [app] in B. apply bounded_cons in B. destruct B as [Ba Bl].
    destruct (find (R a) l2) as [u|] eqn:F.
    2:{ rewrite (find_none _ _ F b Hb) in Rb. discriminate. }
    pose proof (find_some _ _ F) as [Fin FR].
    destruct (Z.eqb_spec (nth a conn 0%Z) (-2)); [|reflexivity].
    (* split at u; another one is behind *)
    assert (Sp : exists m1 m2, l2 = m1 ++ u :: m2 /\ forall y, In y m1 -> R a y = false).
    { clear - F. induction l2 as [|y l2 IH]; [discriminate|]. cbn in F. destruct (R a y) eqn:Ey.
      - injection F as ->. exists [], l2. split; auto. intros ? [].
      - destruct (IH F) as [m1 [m2 [-> H]]]. exists (y :: m1), m2. split; auto. intros z [<-|Hz]; auto. }
    destruct Sp as [m1 [m2 [-> Sp]]].
    assert (Vx : exists v, In v m2 /\ v <> u /\ R a v = true).
    { assert (Beh : forall y, In y (m1 ++ u :: m2) -> R a y = true -> y <> u -> In y m2).
      { intros y Hy Ry Nu. apply in_app_iff in Hy. destruct Hy as [Hy|[Hy|Hy]]; auto; [|congruence].
        rewrite (Sp y Hy) in Ry. discriminate. }
      destruct (Nat.eq_dec b u) as [->|Hbu].
      - exists c. assert (c <> u) by congruence. auto.
      - exists b. auto. }
    destruct Vx as [v [Hv [Hvu Rv]]].
    apply sweep_taken with (v := v); auto.
    + rewrite set_nth_nth by (rewrite set_nth_length; apply Bl, Fin). rewrite Nat.eqb_refl. lia.
    + apply NoDup_remove_2 in N2. rewrite in_app_iff in N2. tauto.
    + now rewrite !set_nth_length.
    + apply T; auto; try (apply in_app_iff; right; now right).
  - cbn [app] in ND, B. inversion ND as [|? ? N1 N2]; subst. apply bounded_cons in B. destruct B as [Bx Bl].
    destruct (find (R x) (l1 ++ a :: l2)) as [u|] eqn:F.
    + destruct (Z.eqb_spec (nth x conn 0%Z) (-2)); [|reflexivity].
      apply IH; auto. now rewrite !set_nth_length.
    + apply IH; auto. destruct (_ =? _)%Z; auto. now rewrite set_nth_length.
Qed.

Lemma first_of_three (l : list nat) i j k :
  In i l -> In j l -> In k l -> i <> j -> i <> k -> j <> k ->
  exists l1 a l2 b c, l = l1 ++ a :: l2 /\ In b l2 /\ In c l2 /\ b <> c /\
    (a = i /\ b = j /\ c = k \/ a = j /\ b = i /\ c = k \/ a = k /\ b = i /\ c = j).
Proof.
  intros Hi Hj Hk Nij Nik Njk. induction l as [|x l IH]; [easy|].
  assert (Tl : forall y, In y (x :: l) -> x <> y -> In y l) by (intros y [|]; tauto).
  destruct (Nat.eq_dec x i) as [->|Xi].
  { exists [], i, l, j, k. refine (conj eq_refl (conj _ (conj _ (conj Njk _)))); auto. }
  destruct (Nat.eq_dec x j) as [->|Xj].
  { exists [], j, l, i, k. refine (conj eq_refl (conj _ (conj _ (conj Nik _)))); auto. }
  destruct (Nat.eq_dec x k) as [->|Xk].
  { exists [], k, l, i, j. refine (conj eq_refl (conj _ (conj _ (conj Nij _)))); auto. }
  destruct IH as [l1 [a [l2 [b [c [-> H]]]]]].
  - destruct Hi; auto; congruence.
  - destruct Hj; auto; congruence.
  - destruct Hk; auto; congruence.
  - exists (x :: l1), a, l2, b, c. auto.
Qed.
End Sweep.

(** * The code's search *)
Definition closeb (tol : Qc) (d2 : nat -> nat -> Qc) (i j : nat) : bool :=
  qltb 0 tol && qltb (d2 i j) (tol * tol)%Qc.

Lemma duplicate_find tol sm d2 lo rest :
  Forall (fun u => sm lo <= sm u)%Qc rest ->
  StronglySorted (fun i j => sm i <= sm j)%Qc rest ->
  (forall u, In u rest -> closeb tol d2 lo u = true -> (sm u - sm lo < tol)%Qc) ->
  duplicate tol sm d2 lo rest = find (closeb tol d2 lo) rest.
Proof.
  induction rest as [|u rest IH]; intros F S W; cbn; [reflexivity|].
  inversion F as [|? ? F1 F2]; inversion S as [|? ? S1 S2]; subst.
  destruct (qltb_spec (sm u - sm lo)%Qc tol) as [T|T].
  - assert (Tp : qltb 0 tol = true) by (destruct (qltb_spec 0 tol); auto; exfalso; qlra).
    replace (closeb tol d2 lo u) with (qltb (d2 lo u) (tol * tol)%Qc) by (unfold closeb; now rewrite Tp).
    destruct (qltb (d2 lo u) _); auto. apply IH; auto.
    intros v Hv. apply W. now right.
  - assert (closeb tol d2 lo u = false) as ->.
    { destruct (closeb tol d2 lo u) eqn:E; auto. exfalso. apply T. apply W; auto. now left. }
    symmetry. destruct (find _ rest) as [v|] eqn:E; auto.
    apply find_some in E. destruct E as [E1 E2]. exfalso.
    assert (sm v - sm lo < tol)%Qc by (apply W; auto; now right).
    rewrite Forall_forall in S2. specialize (S2 v E1). qlra.
Qed.

Lemma connect_sweep tol sm d2 order conn :
  StronglySorted (fun i j => sm i <= sm j)%Qc order ->
  (forall l u, In l order -> In u order -> closeb tol d2 l u = true -> (sm u - sm l < tol)%Qc) ->
  connect tol sm d2 order conn = sweep (closeb tol d2) order conn.
Proof.
  revert conn. induction order as [|lo rest IH]; intros conn S W; [reflexivity|].
  inversion S as [|? ? S1 S2]; subst.
  assert (W' : forall l u, In l rest -> In u rest -> closeb tol d2 l u = true -> (sm u - sm l < tol)%Qc)
    by (intros; apply W; auto; now right).
  cbn [connect sweep].
  rewrite (duplicate_find tol sm d2 lo rest); auto.
  2:{ intros u Hu. apply W; [now left|now right]. }
  destruct rest as [|r rest]; [reflexivity|].
  destruct (find _ _) as [u|]; [|now apply IH].
  destruct (_ =? _)%Z; auto.
Qed.

Lemma scalar_last dim nm p : 0 < dim -> scalar dim nm p = (nth (dim - 1) nm 0 * coord p (dim - 1))%Qc.
Proof.
  intros H. unfold scalar. destruct dim as [|[|m]]; [lia|reflexivity|].
  replace (S (S m) - 1) with (S m) by lia. rewrite seq_S, fold_left_app. cbn. reflexivity.
Qed.

Lemma qabs_le_one x y : (0 <= y)%Qc -> (qabs x <= y)%Qc -> (y <> 0)%Qc ->
  (qabs (x * (1 / y)) <= 1)%Qc.
Proof.
  intros Hy H Ny. assert (Py : (0 < y)%Qc).
  { destruct (Qclt_le_dec 0 y); auto. exfalso. apply Ny. now apply Qcle_antisym. }
  assert (Pi : (0 < / y)%Qc) by now apply Qc_inv_pos.
  assert (Ei : (/ y * y = 1)%Qc) by (rewrite Qcmult_comm; now apply Qcmult_inv_r).
  assert (E : (x * (1 / y) = x * / y)%Qc) by (unfold Qcdiv; ring). rewrite E.
  unfold qabs in *. destruct (Qclt_le_dec x 0), (Qclt_le_dec (x * / y) 0).
  - replace 1%Qc with (y * / y)%Qc by (rewrite <- Ei; ring).
    replace (- (x * / y))%Qc with ((- x) * / y)%Qc by ring. apply Qcmult_le_compat_r; auto. now apply Qclt_le_weak.
  - assert (x * / y <= 0)%Qc. { replace 0%Qc with (0 * / y)%Qc by ring. apply Qcmult_le_compat_r; now apply Qclt_le_weak. }
    qlra.
  - assert (0 <= x * / y)%Qc by (apply Qc_mul_nonneg; auto; now apply Qclt_le_weak). exfalso. qlra.
  - replace 1%Qc with (y * / y)%Qc by (rewrite <- Ei; ring). apply Qcmult_le_compat_r; auto. now apply Qclt_le_weak.
Qed.

Lemma normed_le_one sqrt metric d : root_bound sqrt -> d < length metric ->
  (qabs (nth d (normed sqrt metric) 0) <= 1)%Qc.
Proof.
  intros Hs Hd. unfold normed. set (q := qsum _).
  assert (B : (qabs (nth d metric 0) <= sqrt q)%Qc).
  { apply Hs. unfold q. clear q. revert d Hd. induction metric as [|x m IH]; intros d Hd; cbn in Hd; [lia|].
    cbn [map qsum nth]. destruct d as [|d].
    - assert (0 <= qsum (map (fun x => x * x) m))%Qc by (apply qsum_nonneg; intros; qnra). qlra.
    - specialize (IH d ltac:(lia)). assert (0 <= x * x)%Qc by qnra. qlra. }
  destruct (qltb_spec (sqrt q) (qc 1 100000000000000000000)) as [L|L].
  - rewrite (nth_indep _ 0%Qc 1%Qc) by (rewrite map_length; auto).
    rewrite (map_nth (fun _ => 1%Qc) metric 0%Qc d).
    vm_compute. discriminate.
  - rewrite (nth_indep _ 0%Qc ((fun x => x * (1 / sqrt q)) 0)%Qc) by (rewrite map_length; auto).
    rewrite (map_nth (fun x => x * (1 / sqrt q))%Qc).
    assert (0 < qc 1 100000000000000000000)%Qc by reflexivity.
    apply qabs_le_one; auto; [qlra|]. intros E. rewrite E in L. qlra.
Qed.

Lemma sq_nonneg x : (0 <= x * x)%Qc.
Proof. qnra. Qed.
Lemma sq_mono t y : (0 < t)%Qc -> (t <= y)%Qc -> (t * t <= y * y)%Qc.
Proof.
  intros Ht H. apply Qcle_trans with (t * y)%Qc.
  - rewrite (Qcmult_comm t y). apply Qcmult_le_compat_r; auto. now apply Qclt_le_weak.
  - apply Qcmult_le_compat_r; auto. qlra.
Qed.
Lemma sq_le x q t : (0 < t)%Qc -> (x * x <= q)%Qc -> (q < t * t)%Qc -> (qabs x < t)%Qc.
Proof.
  intros Ht H1 H2. unfold qabs. destruct (Qclt_le_dec x 0).
  - destruct (Qclt_le_dec (- x) t) as [|G]; auto. exfalso. apply sq_mono in G; auto.
    replace ((- x) * (- x))%Qc with (x * x)%Qc in G by ring. qlra.
  - destruct (Qclt_le_dec x t) as [|G]; auto. exfalso. apply sq_mono in G; auto. qlra.
Qed.

Lemma sq_distance_coord dim p q d : d < dim ->
  ((coord q d - coord p d) * (coord q d - coord p d) <= sq_distance dim p q)%Qc.
Proof.
  intros Hd. unfold sq_distance. set (f := fun d => ((coord q d - coord p d) * (coord q d - coord p d))%Qc).
  change (f d <= qsum (map f (seq 0 dim)))%Qc.
  assert (Nn : forall l, (0 <= qsum (map f l))%Qc) by (intros l; apply qsum_nonneg; intros; apply sq_nonneg).
  replace dim with (d + S (dim - d - 1)) by lia. rewrite seq_app, map_app, qsum_app. cbn [seq map qsum plus].
  pose proof (Nn (seq 0 d)). pose proof (Nn (seq (S d) (dim - d - 1))). qlra.
Qed.

Lemma mul_le_one m x t : (qabs m <= 1)%Qc -> (qabs x < t)%Qc -> (m * x < t)%Qc.
Proof. unfold qabs. intros. destruct (Qclt_le_dec m 0), (Qclt_le_dec x 0); qnra. Qed.

Lemma scalar_window sqrt metric dim p q tol : root_bound sqrt -> 0 < dim -> length metric = dim ->
  (0 < tol)%Qc -> (sq_distance dim p q < tol * tol)%Qc ->
  (scalar dim (normed sqrt metric) q - scalar dim (normed sqrt metric) p < tol)%Qc.
Proof.
  intros Hs Hd L Ht H. rewrite !scalar_last by exact Hd.
  set (m := nth (dim - 1) (normed sqrt metric) 0%Qc).
  assert (Hm : (qabs m <= 1)%Qc) by (apply normed_le_one; auto; lia).
  replace (m * coord q (dim - 1) - m * coord p (dim - 1))%Qc
    with (m * (coord q (dim - 1) - coord p (dim - 1)))%Qc by ring.
  apply mul_le_one; auto. eapply sq_le; [exact Ht| |exact H]. apply sq_distance_coord. lia.
Qed.

Lemma sq_distance_spec dim p q : length p = dim -> length q = dim ->
  sq_distance dim p q = qsum (map (fun xy => (fst xy - snd xy) * (fst xy - snd xy))%Qc (combine p q)).
Proof.
  unfold sq_distance. revert dim q. induction p as [|x p IH]; intros dim q <- Lq; destruct q as [|y q]; try discriminate.
  - reflexivity.
  - cbn [length seq combine map qsum fst snd coord nth]. f_equal; [ring|].
    rewrite <- (IH (length p) q eq_refl) by (cbn in Lq; lia).
    rewrite <- seq_shift, map_map. reflexivity.
Qed.

Lemma sq_distance_sym dim p q : sq_distance dim p q = sq_distance dim q p.
Proof. unfold sq_distance. apply f_equal, map_ext. intros. ring. Qed.

Section Points.
Variables (sqrt : Qc -> Qc) (dim : nat) (ps : list (list Qc)) (metric : list Qc) (tol : Qc).
Hypothesis Hsqrt : root_bound sqrt.
Hypothesis Hdim : 0 < dim.
Hypothesis Hps : points dim ps.
Hypothesis Hmetric : length metric = dim.
Let n := length ps.
Let d2 i j := sq_distance dim (nth i ps []) (nth j ps []).
Let R := closeb tol d2.
Let sms := map (scalar dim (normed sqrt metric)) ps.
Let sm i := nth i sms 0%Qc.
Let order := stable_argsort sms.

Lemma R_sym i j : R i j = R j i.
Proof. unfold R, closeb, d2. now rewrite sq_distance_sym. Qed.
Lemma R_meet i j : i < n -> j < n -> (partner R i j <-> meet tol ps i j).
Proof.
  intros Hi Hj. unfold partner, meet, close, R, closeb.
  unfold points in Hps. rewrite Forall_forall in Hps.
  unfold d2. rewrite sq_distance_spec by (apply Hps, nth_In; assumption).
  rewrite andb_true_iff.
  destruct (qltb_spec 0 tol); destruct (qltb_spec (qsum (map (fun xy => (fst xy - snd xy) * (fst xy - snd xy))%Qc
      (combine (nth i ps []) (nth j ps [])))) (tol * tol)%Qc); intuition (auto; congruence).
Qed.
Lemma sm_length : length sms = n.
Proof. unfold sms. apply map_length. Qed.

Lemma order_facts :
  NoDup order /\ (forall i, In i order <-> i < n) /\ StronglySorted (fun i j => sm i <= sm j)%Qc order.
Proof.
  destruct (argsort_lex_gen 0%Qc sms 0 (length sms)) as [S E].
  change (fold_right _ _ _) with order in S. 
  assert (E' : forall j, In j order <-> 0 <= j < 0 + length sms) by exact E. clear E. rename E' into E.
  split; [|split].
  - clear E. induction S as [|x l S IH F]; constructor; auto. intros Hx. rewrite Forall_forall in F.
    destruct (F x Hx) as [C|[_ C]]; [qlra|lia].
  - intros i. rewrite E, sm_length. lia.
  - clear E. induction S as [|x l S IH F]; constructor; auto.
    eapply Forall_impl; [|exact F]. intros y [C|[C _]]; unfold sm; qlra.
Qed.

Lemma window i j : i < n -> j < n -> R i j = true -> (sm j - sm i < tol)%Qc.
Proof.
  intros Hi Hj H. unfold R, closeb in H. apply andb_true_iff in H. destruct H as [H1 H2].
  destruct (qltb_spec 0 tol) as [T|]; [|discriminate]. destruct (qltb_spec (d2 i j) (tol * tol)%Qc) as [D|]; [|discriminate].
  unfold sm, sms.
  rewrite !(nth_indep (map _ ps) 0%Qc (scalar dim (normed sqrt metric) [])) by (rewrite map_length; assumption).
  rewrite !(map_nth (scalar dim (normed sqrt metric))). apply scalar_window; auto.
Qed.

Lemma connect_is_sweep conn : connect tol sm d2 order conn = sweep R order conn.
Proof.
  destruct order_facts as [_ [In_n S]]. apply connect_sweep; auto.
  intros l u Hl Hu. apply window; now apply In_n.
Qed.

Lemma find_run para_dim :
  para_dim <> 0 -> length ps mod (para_dim * 2) = 0 -> ps <> [] ->
  find_connectivity sqrt dim ps para_dim metric tol =
  match sweep R order (map (fun _ => (-2)%Z) ps) with Some c => Connected c | None => Conflict end.
Proof.
  intros Hp Hm Hne. unfold find_connectivity. destruct (Nat.eqb_spec para_dim 0); [tauto|].
  rewrite Hm. cbn [Nat.eqb negb]. rewrite Hmetric, Nat.eqb_refl. cbn [negb].
  destruct (Nat.eqb_spec (length ps) 0) as [E|_]; [apply length_zero_iff_nil in E; tauto|].
  fold sms. change (fun i => nth i sms 0%Qc) with sm.
  change (fun i j => sq_distance dim (nth i ps []) (nth j ps [])) with d2. fold order.
  now rewrite connect_is_sweep.
Qed.

Lemma start_length : length (map (fun _ => (-2)%Z) ps) = n.
Proof. apply map_length. Qed.
Lemma start_nth i : i < n -> nth i (map (fun _ => (-2)%Z) ps) 0%Z = (-2)%Z.
Proof.
  intros H. rewrite (nth_indep _ 0%Z (-2)%Z) by (rewrite map_length; exact H).
  exact (map_nth (fun _ => (-2)%Z) ps [] i).
Qed.
Lemma order_bounded : bounded n order.
Proof. intros i Hi. now apply order_facts. Qed.

Lemma run_sound conn : sweep R order (map (fun _ => (-2)%Z) ps) = Some conn ->
  length conn = n /\ forall i, i < n -> nth i conn 0%Z = (-1)%Z \/
    exists j, nth i conn 0%Z = Z.of_nat j /\ j < n /\ R i j = true /\ i <> j.
Proof.
  intros E. destruct order_facts as [ND [In_n _]].
  apply (sweep_sound R R_sym n order) in E; auto.
  - apply start_length.
  - apply order_bounded.
  - intros i Hi. right. split; [now apply start_nth|now apply In_n].
Qed.

Lemma run_matching : ~ crowded tol ps ->
  exists conn, sweep R order (map (fun _ => (-2)%Z) ps) = Some conn /\ interface_table tol ps conn.
Proof.
  intros NC. destruct order_facts as [ND [In_n _]].
  assert (Uni : forall i j k, i < n -> j < n -> k < n -> partner R i j -> partner R i k -> j = k).
  { intros i j k Hi Hj Hk P1 P2. destruct (Nat.eq_dec j k); auto. exfalso. apply NC.
    exists i, j, k. rewrite R_meet in P1, P2 by assumption. auto. }
  destruct (sweep_matching R R_sym n order [] (map (fun _ => (-2)%Z) ps)) as [conn [E [L H]]]; auto.
  - apply start_length.
  - apply order_bounded.
  - intros ? [].
  - intros i Hi. now apply In_n.
  - intros i Hi. left. split; [apply start_nth; now apply In_n|]. intros ? [].
  - intros ? [].
  - exists conn. split; auto. split; auto. intros i Hi. fold n in Hi. destruct (H i Hi) as [[A N]|[j [Hj [A [P B]]]]].
    + left. split; auto. intros j M. assert (Hj : j < n) by apply M.
      apply (N j Hj). now apply R_meet.
    + right. exists j. split; auto. split; [now apply R_meet|]. split; auto.
      intros k M. assert (Hk : k < n) by apply M. apply (Uni i); auto. now apply R_meet.
Qed.

Lemma run_crowded : separated tol ps -> crowded tol ps ->
  sweep R order (map (fun _ => (-2)%Z) ps) = None.
Proof.
  intros Sep [i [j [k [M1 [M2 Njk]]]]]. destruct order_facts as [ND [In_n _]].
  assert (Hi : i < n) by apply M1. assert (Hj : j < n) by apply M1. assert (Hk : k < n) by apply M2.
  assert (Sym : forall x y, meet tol ps x y -> meet tol ps y x).
  { intros x y M. assert (Hx : x < n) by apply M. assert (Hy : y < n) by apply M.
    apply R_meet in M; auto. apply R_meet; auto. destruct M as [A B]. split; [now rewrite R_sym|auto]. }
  assert (M3 : meet tol ps j k) by (apply (Sep j i k); auto).
  destruct (first_of_three order i j k) as [l1 [a [l2 [b [c [E [Hb [Hc [Nbc Cases]]]]]]]]];
    try (apply In_n; assumption); auto; try apply M1; try apply M2.
  assert (Rm : forall x y, meet tol ps x y -> R x y = true).
  { intros x y M. assert (Hx : x < n) by apply M. assert (Hy : y < n) by apply M.
    apply (R_meet x y Hx Hy) in M. apply M. }
  assert (Mab : meet tol ps a b /\ meet tol ps a c).
  { destruct Cases as [[-> [-> ->]]|[[-> [-> ->]]|[-> [-> ->]]]]; auto. }
  destruct Mab as [Mab Mac]. rewrite E in *.
  apply sweep_crowded with (b := b) (c := c); auto.
  - rewrite start_length. intros x Hx. now apply In_n.
  - intros u v Hu Hv Nuv Ru Rv.
    assert (Pos : forall x, In x l2 -> x < n) by (intros x Hx; apply In_n, in_app_iff; right; now right).
    assert (Ha : a < n) by (apply In_n, in_app_iff; right; now left).
    assert (Na : ~ In a l2) by (apply NoDup_remove_2 in ND; rewrite in_app_iff in ND; tauto).
    assert (Mu : meet tol ps a u). { apply R_meet; auto. split; auto. intros ->. tauto. }
    assert (Mv : meet tol ps a v). { apply R_meet; auto. split; auto. intros ->. tauto. }
    apply Rm. apply (Sep u a v); auto.
Qed.

Lemma meet_dec i j : meet tol ps i j \/ ~ meet tol ps i j.
Proof.
  destruct (Nat.lt_decidable i n) as [Hi|Hi]; [|right; intros M; apply Hi, M].
  destruct (Nat.lt_decidable j n) as [Hj|Hj]; [|right; intros M; apply Hj, M].
  rewrite <- R_meet by assumption. unfold partner. destruct (R i j), (Nat.eq_dec i j); intuition congruence.
Qed.
Lemma bounded_dec (P : nat -> Prop) m : (forall i, P i \/ ~ P i) -> (forall i, P i -> i < m) ->
  (exists i, P i) \/ ~ exists i, P i.
Proof.
  revert P. induction m as [|m IH]; intros P D B; [right; intros [i H]; apply B in H; lia|].
  destruct (D m) as [H|H]; [left; eauto|].
  destruct (IH P D) as [G|G]; auto.
  intros i Hi. specialize (B i Hi). assert (i <> m) by (intros ->; tauto). lia.
Qed.
Lemma crowded_dec : crowded tol ps \/ ~ crowded tol ps.
Proof.
  apply (bounded_dec _ n).
  - intros i. apply (bounded_dec _ n).
    + intros j. apply (bounded_dec _ n).
      * intros k. destruct (meet_dec i j), (meet_dec i k), (Nat.eq_dec j k); intuition.
      * intros k [_ [M _]]. apply M.
    + intros j [k [M _]]. apply M.
  - intros i [j [k [M _]]]. apply M.
Qed.
End Points.

(** * Connected pairs *)
Lemma inj_length (f : nat -> nat) (A B : list nat) : NoDup A -> (forall x, In x A -> In (f x) B) ->
  (forall x y, In x A -> In y A -> f x = f y -> x = y) -> length A <= length B.
Proof.
  intros ND HB Inj. rewrite <- (map_length f A). apply NoDup_incl_length.
  - induction ND as [|i l Ni ND IH]; cbn; constructor.
    + intros H. apply in_map_iff in H. destruct H as [j [E Hj]].
      assert (i = j) by (apply Inj; [now left|now right|auto]). subst. contradiction.
    + apply IH; [intros x Hx; apply HB; now right|]. intros x y Hx Hy. apply Inj; now right.
  - intros y Hy. apply in_map_iff in Hy. destruct Hy as [x [<- Hx]]. auto.
Qed.
Section Pairs.
Variables (faces : nat) (conn : list Z).
Hypothesis Hf : 0 < faces.
Let c i := nth i conn 0%Z.
Let lower i := (0 <=? c i)%Z && (Z.of_nat i <? c i)%Z.
Let entry i := (i / faces, i mod faces, (Z.to_nat (c i) / faces, Z.to_nat (c i) mod faces)).

Lemma pairs_filter : pairs faces conn = map entry (filter lower (seq 0 (length conn))).
Proof.
  unfold pairs. induction (seq 0 (length conn)) as [|i l IH]; [reflexivity|].
  cbn [flat_map filter]. rewrite IH. unfold lower at 1, c at 1 2.
  destruct ((0 <=? nth i conn 0) && (Z.of_nat i <? nth i conn 0))%Z eqn:E.
  - unfold lower, c. rewrite E. reflexivity.
  - unfold lower, c. rewrite E. reflexivity.
Qed.
Lemma split_id i : i = faces * (i / faces) + i mod faces.
Proof. apply Nat.div_mod. lia. Qed.
Lemma pairs_NoDup : NoDup (pairs faces conn).
Proof.
  rewrite pairs_filter. assert (ND : NoDup (filter lower (seq 0 (length conn)))) by (apply NoDup_filter, seq_NoDup).
  induction ND as [|i l Ni ND IH]; cbn; constructor; auto.
  intros H. apply in_map_iff in H. destruct H as [j [E Hj]]. unfold entry in E. injection E as E1 E2 _ _.
  assert (i = j) by (rewrite (split_id i), (split_id j), E1, E2; reflexivity). subst. contradiction.
Qed.
Lemma pairs_In p f q g : In (p, f, (q, g)) (pairs faces conn) <->
  exists i j, i < length conn /\ i < j /\ nth i conn 0%Z = Z.of_nat j /\
    p = i / faces /\ f = i mod faces /\ q = j / faces /\ g = j mod faces.
Proof.
  rewrite pairs_filter, in_map_iff. split.
  - intros [i [E H]]. apply filter_In in H. destruct H as [H1 H2]. apply in_seq in H1.
    unfold lower in H2. apply andb_true_iff in H2. destruct H2 as [H2 H3].
    apply Z.leb_le in H2. apply Z.ltb_lt in H3. unfold entry in E. injection E as <- <- <- <-.
    exists i, (Z.to_nat (c i)). fold (c i). repeat split; lia.
  - intros [i [j [H1 [H2 [H3 [-> [-> [-> ->]]]]]]]]. exists i. fold (c i) in H3. unfold entry. rewrite H3, Nat2Z.id.
    split; auto. apply filter_In. split; [apply in_seq; lia|]. unfold lower. rewrite H3.
    apply andb_true_iff. split; [apply Z.leb_le; lia|apply Z.ltb_lt; lia].
Qed.

Lemma pairs_count : symmetric_table conn ->
  2 * length (pairs faces conn) = length (filter (fun z => 0 <=? z)%Z conn).
Proof.
  intros Sy. rewrite pairs_filter, map_length.
  set (I := seq 0 (length conn)).
  set (upper := fun i => (0 <=? c i)%Z && negb (Z.of_nat i <? c i)%Z).
  assert (E1 : length (filter (fun z => 0 <=? z)%Z conn) = length (filter (fun i => 0 <=? c i)%Z I)).
  { assert (M : conn = map c I).
    { unfold I, c. clear. induction conn as [|z l IH]; [reflexivity|]. cbn [length seq map]. f_equal; auto.
      rewrite <- seq_shift, map_map. exact IH. }
    rewrite M at 1. clear M. induction I as [|i l IH]; [reflexivity|]. cbn [map filter].
    destruct (0 <=? c i)%Z; cbn [length]; auto. }
  assert (E2 : length (filter (fun i => 0 <=? c i)%Z I) = length (filter lower I) + length (filter upper I)).
  { clear. induction I as [|i l IH]; [reflexivity|]. cbn [filter].
    unfold lower at 1, upper at 1. destruct (0 <=? c i)%Z; cbn [andb]; auto.
    destruct (Z.of_nat i <? c i)%Z; cbn [negb length]; lia. }
  assert (Mem : forall i, In i (filter lower I) \/ In i (filter upper I) ->
            i < length conn /\ exists j, c i = Z.of_nat j /\ j < length conn /\ j <> i /\ c j = Z.of_nat i).
  { intros i Hi. assert (Hl : i < length conn /\ (0 <= c i)%Z).
    { destruct Hi as [Hi|Hi]; apply filter_In in Hi; destruct Hi as [Hi P]; apply in_seq in Hi;
        unfold lower, upper in P; apply andb_true_iff in P; destruct P as [P _]; apply Z.leb_le in P; split; lia. }
    destruct Hl as [Hl P]. split; auto. apply Sy; auto. }
  assert (Low : forall i, In i (filter lower I) <-> i < length conn /\ (0 <= c i)%Z /\ (Z.of_nat i < c i)%Z).
  { intros i. rewrite filter_In. unfold I, lower. rewrite in_seq, andb_true_iff, Z.leb_le, Z.ltb_lt. intuition lia. }
  assert (Upp : forall i, In i (filter upper I) <-> i < length conn /\ (0 <= c i)%Z /\ (c i <= Z.of_nat i)%Z).
  { intros i. rewrite filter_In. unfold I, upper. rewrite in_seq, andb_true_iff, Z.leb_le, negb_true_iff, Z.ltb_ge.
    intuition lia. }
  assert (E3 : length (filter upper I) = length (filter lower I)).
  { apply Nat.le_antisymm; apply (inj_length (fun i => Z.to_nat (c i))); try (apply NoDup_filter, seq_NoDup).
    - intros i Hi. destruct (Mem i (or_intror Hi)) as [Hl [j [A1 [A2 [A3 A4]]]]]. apply Upp in Hi. apply Low.
      rewrite A1, Nat2Z.id. rewrite A1 in Hi. rewrite A4. lia.
    - intros i k Hi Hk E. destruct (Mem i (or_intror Hi)) as [_ [j [A1 [A2 [A3 A4]]]]].
      destruct (Mem k (or_intror Hk)) as [_ [m [B1 [B2 [B3 B4]]]]]. rewrite A1, B1, !Nat2Z.id in E. subst m. lia.
    - intros i Hi. destruct (Mem i (or_introl Hi)) as [Hl [j [A1 [A2 [A3 A4]]]]]. apply Low in Hi. apply Upp.
      rewrite A1, Nat2Z.id. rewrite A1 in Hi. rewrite A4. lia.
    - intros i k Hi Hk E. destruct (Mem i (or_introl Hi)) as [_ [j [A1 [A2 [A3 A4]]]]].
      destruct (Mem k (or_introl Hk)) as [_ [m [B1 [B2 [B3 B4]]]]]. rewrite A1, B1, !Nat2Z.id in E. subst m. lia. }
  lia.
Qed.
End Pairs.

(** * Orientation *)
Lemma dot_inner u v : dot u v = inner u v.
Proof. reflexivity. Qed.
Lemma inner_scale_l c u v : inner (map (fun x => c * x)%Qc u) v = (c * inner u v)%Qc.
Proof.
  unfold inner. revert v. induction u as [|x u IH]; intros v; [cbn; ring|].
  destruct v as [|y v]; [cbn; ring|]. cbn [map combine qsum fst snd]. rewrite IH. ring.
Qed.
Lemma inner_sym u v : inner u v = inner v u.
Proof.
  unfold inner. revert v. induction u as [|x u IH]; intros [|y v]; try reflexivity.
  cbn [map combine qsum fst snd]. rewrite IH. ring.
Qed.
Lemma inner_scale_r c u v : inner v (map (fun x => c * x)%Qc u) = (c * inner v u)%Qc.
Proof. rewrite inner_sym, inner_scale_l, inner_sym. reflexivity. Qed.
Lemma inner_nonneg u : (0 <= inner u u)%Qc.
Proof.
  unfold inner. induction u as [|x u IH]; [vm_compute; discriminate|].
  cbn [combine map qsum fst snd]. pose proof (sq_nonneg x). qlra.
Qed.

Lemma qabs_pos x : x <> 0%Qc -> (0 < qabs x)%Qc.
Proof.
  unfold qabs. intros H. destruct (Qclt_le_dec x 0); [qlra|].
  destruct (Qclt_le_dec 0 x); auto. exfalso. apply H. now apply Qcle_antisym.
Qed.
Lemma qabs_sq x : (qabs x * qabs x = x * x)%Qc.
Proof. unfold qabs. destruct (Qclt_le_dec x 0); ring. Qed.
Lemma qabs_div x y : (0 < y)%Qc -> (qabs (x / y) = qabs x / y)%Qc.
Proof.
  intros Hy. assert (Hi : (0 < / y)%Qc) by now apply Qc_inv_pos.
  unfold qabs, Qcdiv. destruct (Qclt_le_dec x 0), (Qclt_le_dec (x * / y) 0); try ring.
  - exfalso. assert (x * / y < 0)%Qc by qnra. qlra.
  - exfalso. assert (0 <= x * / y)%Qc by (apply Qc_mul_nonneg; auto; now apply Qclt_le_weak). qlra.
Qed.
Lemma qabs_self_div x : x <> 0%Qc -> (qabs (x / qabs x) = 1)%Qc.
Proof.
  intros H. rewrite qabs_div by now apply qabs_pos. apply Qcmult_inv_r.
  pose proof (qabs_pos x H) as P. intros E. rewrite E in P. qlra.
Qed.

Lemma find_index (P : nat -> list Qc -> bool) je a j : j < length je ->
  P (a + j) (nth j je []) = true -> (forall k, k < j -> P (a + k) (nth k je []) = false) ->
  find (fun e => P (fst e) (snd e)) (combine (seq a (length je)) je) = Some (a + j, nth j je []).
Proof.
  revert a j. induction je as [|e je IH]; intros a j Hj Pj Hk; [cbn in Hj; lia|].
  cbn [length seq combine find fst snd]. destruct j as [|j].
  - rewrite Nat.add_0_r in *. cbn in Pj. now rewrite Pj.
  - specialize (Hk 0 ltac:(lia)) as H0. rewrite Nat.add_0_r in H0. cbn [nth] in H0. rewrite H0.
    replace (a + S j) with (S a + j) in * by lia.
    apply (IH (S a) j); auto; [cbn in Hj; lia|].
    intros k Hk'. specialize (Hk (S k) ltac:(lia)). now replace (S a + k) with (a + S k) by lia.
Qed.

Lemma parallel_axis_spec sqrt tol s je j c : root_bound sqrt -> root_exact sqrt ->
  (0 < tol)%Qc -> (tol < 1)%Qc -> same_line tol s je j c ->
  parallel_axis sqrt tol s je = Some (j, qltb 0 c).
Proof.
  intros Hb He Ht Ht1 [Hj [Hc [Hn [Hs Hk]]]]. unfold parallel_axis.
  set (e := nth j je []) in *. set (m := inner e e) in *.
  assert (Hm : (0 < m)%Qc).
  { pose proof (inner_nonneg e) as P. fold m in P. destruct (Qclt_le_dec 0 m); auto.
    exfalso. apply Hn. now apply Qcle_antisym. }
  assert (Ess : dot s s = (c * c * m)%Qc).
  { rewrite dot_inner, Hs, inner_scale_l, inner_scale_r. unfold m. ring. }
  assert (Ese : dot s e = (c * m)%Qc) by (rewrite dot_inner, Hs, inner_scale_l; reflexivity).
  assert (Hcm : (c * m <> 0)%Qc).
  { intros E. apply Qcmult_integral in E. destruct E as [|E]; [tauto|]. rewrite E in Hm. qlra. }
  set (P := fun (_ : nat) (e : list Qc) => let q := sqrt (dot s s * dot e e)%Qc in
              negb (qeqb q 0) && qltb (1 - tol) (qabs (dot s e / q))%Qc).
  change (find _ _) with (find (fun e => P (fst e) (snd e)) (combine (seq 0 (length je)) je)).
  rewrite (find_index P je 0 j); auto.
  - cbn [option_map fst snd]. f_equal. f_equal. fold e. rewrite Ese. clear - Hm.
    destruct (qltb_spec 0 (c * m)%Qc), (qltb_spec 0 c); auto; exfalso.
    + apply n. destruct (Qclt_le_dec 0 c); auto. assert (c * m <= 0)%Qc by qnra. qlra.
    + apply n. now apply Qc_mul_pos.
  - unfold P. fold e. rewrite Ess, Ese. rewrite dot_inner. fold m.
    replace (c * c * m * m)%Qc with ((c * m) * (c * m))%Qc by ring. rewrite He.
    rewrite (qabs_self_div (c * m) Hcm). pose proof (qabs_pos _ Hcm) as Pq.
    destruct (qeqb_spec (qabs (c * m)) 0) as [E|]; [rewrite E in Pq; qlra|].
    destruct (qltb_spec (1 - tol) 1); [reflexivity|]. exfalso. qlra.
  - intros k Hkj. unfold P. specialize (Hk k ltac:(lia) ltac:(lia)).
    set (f := nth k je []) in *. change dot with inner. set (q := (inner s s * inner f f)%Qc) in *.
    cbn zeta. destruct (qeqb_spec (sqrt q) 0) as [|Nq]; [reflexivity|]. cbn [negb andb].
    set (d := inner s f) in *.
    assert (Sq : (0 <= sqrt q)%Qc).
    { assert (0 <= q)%Qc by (apply Qc_mul_nonneg; apply inner_nonneg).
      assert (0 * 0 <= q)%Qc by (replace (0 * 0)%Qc with 0%Qc by ring; auto).
      apply Hb in H0. replace (qabs 0) with 0%Qc in H0 by reflexivity. exact H0. }
    assert (Sp : (0 < sqrt q)%Qc).
    { destruct (Qclt_le_dec 0 (sqrt q)); auto. exfalso. apply Nq. now apply Qcle_antisym. }
    destruct (qltb_spec (1 - tol) (qabs (d / sqrt q))) as [L|]; [exfalso|reflexivity].
    assert (T : (0 < 1 - tol)%Qc) by qlra.
    assert (T' : (1 - tol <> 0)%Qc) by (intros E; rewrite E in T; qlra).
    assert (B : (qabs (d / (1 - tol)) <= sqrt q)%Qc).
    { apply Hb.
      replace (d / (1 - tol) * (d / (1 - tol)))%Qc with ((d * d) / ((1 - tol) * (1 - tol)))%Qc by (field; auto).
      apply Qc_div_le; [now apply Qc_mul_pos|]. rewrite (Qcmult_comm q). exact Hk. }
    rewrite qabs_div in B, L by assumption.
    assert (qabs d <= sqrt q * (1 - tol))%Qc.
    { replace (qabs d) with (qabs d / (1 - tol) * (1 - tol))%Qc by (field; auto).
      apply Qcmult_le_compat_r; auto. now apply Qclt_le_weak. }
    assert (qabs d / sqrt q <= 1 - tol)%Qc.
    { apply Qc_div_le; auto. rewrite Qcmult_comm. exact H. }
    qlra.
Qed.

Lemma orientation_spec sqrt tol js je fs fe i :
  root_bound sqrt -> root_exact sqrt -> (0 < tol)%Qc -> (tol < 1)%Qc -> i < length js ->
  (i = fs / 2 -> nth i (orientation sqrt tol js je fs fe) None =
     Some (fe / 2, negb (Bool.eqb (Nat.even fs) (Nat.even fe)))) /\
  (forall j c, i <> fs / 2 -> same_line tol (nth i js []) je j c ->
     nth i (orientation sqrt tol js je fs fe) None = Some (j, qltb 0 c)).
Proof.
  intros Hb He Ht Ht1 Hi. unfold orientation.
  set (F := fun i0 => if i0 =? fs / 2 then _ else _).
  assert (N : nth i (map F (seq 0 (length js))) None = F i).
  { rewrite (nth_indep _ None (F 0)) by (rewrite map_length, seq_length; auto).
    rewrite (map_nth F), seq_nth by auto. reflexivity. }
  rewrite N. unfold F. split.
  - intros ->. rewrite Nat.eqb_refl.
    assert (Ev : forall n, (n mod 2 =? 0) = Nat.even n).
    { intros n. destruct (Nat.even n) eqn:E.
      - apply Nat.even_spec in E. destruct E as [k ->]. rewrite Nat.mul_comm, Nat.mod_mul by lia. reflexivity.
      - assert (O : Nat.odd n = true) by (unfold Nat.odd; now rewrite E). apply Nat.odd_spec in O. destruct O as [k ->].
        rewrite Nat.add_comm, Nat.mul_comm, Nat.mod_add by lia. reflexivity. }
    rewrite !Ev. f_equal. f_equal. destruct (Nat.even fs), (Nat.even fe); reflexivity.
  - intros j c Ne SL. destruct (Nat.eqb_spec i (fs / 2)); [tauto|]. now apply parallel_axis_spec.
Qed.

(** * All boundary splines *)
Lemma extract_all_run {A} hc (b : nat -> nat -> A) n_patches faces nt conn : 0 < nt ->
  extract_all hc b n_patches faces nt conn =
  if n_patches <? nt then None
  else Some (flat_map (fun i => flat_map (fun j =>
         if (nth (i * faces + j) conn 0 <? 0)%Z then [b i j] else []) (seq 0 faces)) (seq 0 nt)).
Proof.
  intros Hn. unfold extract_all.
  assert (E : exists ts, launched (nthread_execution hc (Z.of_nat nt) (Z.of_nat nt)) = Some ts /\
            flat_map (fun t => map Z.to_nat (zrange (t_begin t) (t_end t))) ts = seq 0 nt).
  { unfold nthread_execution. destruct (Z.ltb_spec (Z.of_nat nt) 0); [lia|].
    assert (R : forall a m, map Z.to_nat (zrange (Z.of_nat a) (Z.of_nat (a + m))) = seq a m).
    { intros a m. revert a. induction m as [|m IH]; intros a.
      - rewrite zrange_nil by lia. reflexivity.
      - rewrite zrange_cons by lia. cbn [map seq]. rewrite Nat2Z.id. f_equal.
        specialize (IH (S a)). replace (Z.of_nat a + 1)%Z with (Z.of_nat (S a)) by lia.
        now replace (a + S m) with (S a + m) by lia. }
    destruct (Z.leb_spec (Z.of_nat nt) 1).
    - eexists. split; [reflexivity|]. cbn [flat_map t_begin t_end]. rewrite app_nil_r. apply (R 0 nt).
    - rewrite Z.min_id. destruct (Z.eqb_spec (Z.of_nat nt) 0); [lia|].
      eexists. split; [reflexivity|]. rewrite flat_map_app. cbn [flat_map t_begin t_end].
      assert (Q : Z.quot (Z.of_nat nt + Z.of_nat nt - 1) (Z.of_nat nt) = 1%Z).
      { rewrite Z.quot_div_nonneg by lia. symmetry. apply (Z.div_unique _ _ 1 (Z.of_nat nt - 1)); lia. }
      rewrite Q, app_nil_r.
      replace ((Z.of_nat nt - 1) * 1)%Z with (Z.of_nat (nt - 1)) by lia.
      pose proof (R (nt - 1) 1) as Last. replace (nt - 1 + 1) with nt in Last by lia. rewrite Last.
      pose proof (seq_app (nt - 1) 1 0) as Sp. replace (nt - 1 + 1) with nt in Sp by lia. rewrite Sp.
      f_equal.
      replace (Z.of_nat nt - 1)%Z with (Z.of_nat (nt - 1)) by lia.
      generalize (nt - 1). clear. intros m.
      assert (Z0 : zrange 0 (Z.of_nat m) = map Z.of_nat (seq 0 m)).
      { induction m as [|m IH]; [apply zrange_nil; lia|].
        rewrite (zrange_app 0 (Z.of_nat m)) by lia. rewrite IH, seq_S, map_app. f_equal.
        rewrite zrange_cons by lia. rewrite zrange_nil by lia. reflexivity. }
      rewrite Z0. clear Z0. induction (seq 0 m) as [|i l IH]; [reflexivity|].
      cbn [map flat_map t_begin t_end]. rewrite IH.
      replace (Z.of_nat i * 1)%Z with (Z.of_nat i) by lia.
      replace ((Z.of_nat i + 1) * 1)%Z with (Z.of_nat i + 1)%Z by lia.
      rewrite zrange_cons by lia. rewrite zrange_nil by lia. cbn [map app]. now rewrite Nat2Z.id. }
  destruct E as [ts [E1 E2]]. rewrite E1, E2.
  destruct (Nat.ltb_spec n_patches nt) as [L|L].
  - assert (forallb (fun i => i <? n_patches) (seq 0 nt) = false) as ->; auto.
    destruct (forallb _ _) eqn:F; auto. rewrite forallb_forall in F.
    specialize (F n_patches ltac:(apply in_seq; lia)). rewrite Nat.ltb_irrefl in F. discriminate.
  - assert (forallb (fun i => i <? n_patches) (seq 0 nt) = true) as ->; auto.
    apply forallb_forall. intros i Hi. apply in_seq in Hi. apply Nat.ltb_lt. lia.
Qed.

(** * A root *)
Definition some_root (q : Qc) : Qc :=
  let r := Q2Qc (Z.sqrt (Qnum q) # Z.to_pos (Z.sqrt (Zpos (Qden q)))) in
  if qeqb (r * r) q then r else if qltb q 1 then 1%Qc else q.

Lemma some_root_nonneg q : (0 <= Q2Qc (Z.sqrt (Qnum q) # Z.to_pos (Z.sqrt (Zpos (Qden q)))))%Qc.
Proof.
  unfold Qcle. rewrite this_Q2Qc, this_Q2Qc. unfold Qle. cbn. pose proof (Z.sqrt_nonneg (Qnum q)). lia.
Qed.
Lemma sq_le_abs x r : (0 <= r)%Qc -> (x * x <= r * r)%Qc -> (qabs x <= r)%Qc.
Proof.
  intros Hr H. destruct (Qclt_le_dec r (qabs x)) as [G|]; auto. exfalso.
  rewrite <- (qabs_sq x) in H. revert H G. generalize (qabs x). intros y H G.
  assert (r * r < y * y)%Qc by qnra. qlra.
Qed.
Lemma some_root_bound : root_bound some_root.
Proof.
  intros x q H. unfold some_root. cbn zeta. pose proof (some_root_nonneg q) as P. revert P.
  generalize (Q2Qc (Z.sqrt (Qnum q) # Z.to_pos (Z.sqrt (Zpos (Qden q))))). intros r P.
  destruct (qeqb_spec (r * r) q) as [<-|_]; [now apply sq_le_abs|].
  destruct (qltb_spec q 1).
  - apply sq_le_abs; [vm_compute; discriminate|]. replace (1 * 1)%Qc with 1%Qc by ring. qlra.
  - apply sq_le_abs; [qlra|]. assert (1 <= q)%Qc by qlra.
    assert (1 * q <= q * q)%Qc by (apply Qcmult_le_compat_r; auto; qlra). qlra.
Qed.

Lemma this_square (x : Qc) : this (x * x)%Qc = (Qnum x * Qnum x # Qden x * Qden x)%Q.
Proof.
  change (Qred (this x * this x) = (Qnum x * Qnum x # Qden x * Qden x)%Q).
  assert (C : Z.gcd (Qnum x) (Zpos (Qden x)) = 1%Z) by (apply Qred_iff, canon).
  apply Qred_iff. cbn [Qnum Qden]. rewrite Pos2Z.inj_mul.
  apply Zgcd_1_rel_prime. apply Zgcd_1_rel_prime in C.
  apply rel_prime_sym, rel_prime_mult; apply rel_prime_sym; apply rel_prime_mult; auto.
Qed.
Lemma some_root_exact : root_exact some_root.
Proof.
  intros x. unfold some_root. rewrite this_square. cbn [Qnum Qden].
  rewrite Pos2Z.inj_mul, (Z.sqrt_square (Zpos (Qden x))) by lia. cbn [Z.to_pos].
  replace (Z.sqrt (Qnum x * Qnum x)) with (Z.abs (Qnum x)).
  2:{ rewrite <- (Z.abs_square (Qnum x)), Z.sqrt_square; lia. }
  assert (E : Q2Qc (Z.abs (Qnum x) # Qden x) = qabs x).
  { apply eq_this. rewrite this_Q2Qc. unfold qabs. destruct (Qclt_le_dec x 0) as [L|L].
    - rewrite this_opp. destruct x as [[a b] cx]. unfold Qclt in L. cbn in *. unfold Qlt in L. cbn in L.
      unfold Qeq. cbn. lia.
    - destruct x as [[a b] cx]. unfold Qcle in L. cbn in *. unfold Qle in L. cbn in L.
      unfold Qeq. cbn. lia. }
  rewrite E, qabs_sq. destruct (qeqb_spec (x * x) (x * x)); tauto.
Qed.

(** * Points in a row *)
Definition point (x : Z) : list Qc := [qc x 10; 0%Qc].

Lemma argsort_zero (sms : list Qc) : (forall x, In x sms -> x = 0%Qc) ->
  stable_argsort sms = seq 0 (length sms).
Proof.
  intros H. unfold stable_argsort.
  assert (Z : forall i, nth i sms 0%Qc = 0%Qc).
  { intros i. destruct (Nat.lt_ge_cases i (length sms)) as [L|L]; [apply H, nth_In, L|apply nth_overflow, L]. }
  generalize (seq 0 (length sms)). intros l. induction l as [|i l IH]; [reflexivity|].
  cbn [fold_right]. rewrite IH. destruct l as [|j l]; [reflexivity|]. cbn [ainsert]. rewrite !Z.
  destruct (qleb_spec 0 0) as [|N]; [reflexivity|]. exfalso. apply N. apply Qcle_refl.
Qed.
Lemma flat_run sqrt xs tol : root_bound sqrt -> xs <> [] -> length xs mod 2 = 0 ->
  interfaces_from_centers sqrt 2 (map point xs) tol 1 =
  match sweep (closeb tol (fun i j => sq_distance 2 (nth i (map point xs) []) (nth j (map point xs) [])))
     (seq 0 (length xs)) (map (fun _ => (-2)%Z) (map point xs))
  with Some c => Connected c | None => Conflict end.
Proof.
  intros Hs Hne Hm. unfold interfaces_from_centers. rewrite map_length.
  destruct (Nat.eqb_spec (length xs) 0) as [E|_]; [apply length_zero_iff_nil in E; tauto|].
  rewrite (find_run sqrt 2 (map point xs) (extent 2 (map point xs)) tol Hs ltac:(lia) eq_refl 1).
  - rewrite argsort_zero.
    + now rewrite !map_length.
    + intros x Hx. apply in_map_iff in Hx. destruct Hx as [p [<- Hp]]. apply in_map_iff in Hp.
      destruct Hp as [z [<- _]]. rewrite scalar_last by lia. change (coord (point z) (2 - 1)) with 0%Qc. ring.
  - lia.
  - now rewrite map_length.
  - destruct xs; [tauto|discriminate].
Qed.

(** * Faces of all patches *)
Lemma flat_map_block {A} (f : nat -> nat -> list A) faces n : 0 < faces ->
  flat_map (fun i => flat_map (f i) (seq 0 faces)) (seq 0 n) =
  flat_map (fun k => f (k / faces) (k mod faces)) (seq 0 (n * faces)).
Proof.
  intros Hf. induction n as [|n IH]; [reflexivity|].
  rewrite seq_S, flat_map_app, IH. cbn [flat_map]. rewrite app_nil_r.
  replace (S n * faces) with (n * faces + faces) by lia. rewrite seq_app, flat_map_app. f_equal.
  cbn [plus].
  assert (E : seq (n * faces) faces = map (fun j => n * faces + j) (seq 0 faces)).
  { rewrite seq_shift_add. now rewrite Nat.add_0_r. }
  rewrite E, !flat_map_concat_map, map_map. f_equal. apply map_ext_in. intros j Hj. apply in_seq in Hj.
  rewrite Nat.div_add_l by lia. rewrite (Nat.div_small j) by lia. rewrite Nat.add_0_r.
  rewrite Nat.add_comm, Nat.mod_add by lia. now rewrite Nat.mod_small by lia.
Qed.
Lemma flat_map_if {A} (p : nat -> bool) (g : nat -> A) l :
  flat_map (fun i => if p i then [g i] else []) l = map g (filter p l).
Proof. induction l as [|i l IH]; cbn; auto. destruct (p i); cbn; now rewrite IH. Qed.
