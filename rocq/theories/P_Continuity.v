(** Proofs about boundaries from continuity. *)
From Coq Require Import List Arith ZArith Bool Lia Relations Permutation.
From Verif Require Import Base M_Boundaries S_Boundaries P_Boundaries.
Import ListNotations.
Local Open Scope nat_scope.

Section Fill.
Variables (n faces : nat) (conn : list Z) (g1 : list bool).
(** One step of the propagation. *)
Definition edge (a b : nat) : Prop :=
  exists f, f < faces /\ nth (a * faces + f) g1 false = true /\
    b = Z.to_nat (Z.quot (nth (a * faces + f) conn 0%Z) (Z.of_nat faces)).
Hypothesis edge_bound : forall a b, a < n -> edge a b -> b < n.
Hypothesis edge_sym : forall a b, a < n -> edge a b -> edge b a.

Definition free (asg : list nat) : nat := length (filter (Nat.eqb 0) asg).

Lemma free_set asg b v : b < length asg -> nth b asg 0 = 0 -> v <> 0 ->
  S (free (set_nth asg b v)) = free asg.
Proof.
  unfold free. revert b; induction asg as [|x asg IH]; intros b H E V; cbn in H; [lia|].
  destruct b as [|b]; cbn in E.
  - subst x. change (set_nth (0 :: asg) 0 v) with (v :: asg). cbn [filter].
    destruct v; [lia|]. reflexivity.
  - change (set_nth (x :: asg) (S b) v) with (x :: set_nth asg b v). cbn [filter].
    specialize (IH b ltac:(lia) E V). destruct (Nat.eqb 0 x); cbn [length]; lia.
Qed.

(** [asg'] extends [asg] by [cur] at patches reachable from [i]. *)
Definition grows (cur i : nat) (asg asg' : list nat) : Prop :=
  length asg' = n /\
  forall x, x < n -> (nth x asg 0 <> 0 -> nth x asg' 0 = nth x asg 0) /\
    (nth x asg 0 = 0 -> nth x asg' 0 = 0 \/ (nth x asg' 0 = cur /\ clos_refl_trans nat edge i x)).

Lemma visit_spec cur c i : cur <> 0 -> c < n -> clos_refl_trans nat edge i c ->
  forall fs stack asg asg0, Forall (fun f => f < faces) fs -> length asg = n ->
  grows cur i asg0 asg ->
  forall stack' asg', visit faces conn g1 cur c fs stack asg = (stack', asg') ->
  grows cur i asg0 asg' /\
  free asg' + length stack' = free asg + length stack /\
  (forall x, In x stack -> In x stack') /\
  (forall x, x < n -> nth x asg 0 <> 0 -> nth x asg' 0 = nth x asg 0) /\
  (forall x, x < n -> nth x asg 0 = 0 -> nth x asg' 0 <> 0 -> In x stack' /\ nth x asg' 0 = cur) /\
  (forall x, In x stack' -> In x stack \/ (x < n /\ nth x asg' 0 = cur /\ clos_refl_trans nat edge i x)) /\
  (forall f b, In f fs -> nth (c * faces + f) g1 false = true ->
     b = Z.to_nat (Z.quot (nth (c * faces + f) conn 0%Z) (Z.of_nat faces)) -> nth b asg' 0 <> 0).
Proof.
  intros C0 Cn Rc. induction fs as [|f fs IH]; intros stack asg asg0 F L G stack' asg' E; cbn [visit] in E.
  - injection E as <- <-. refine (conj G (conj eq_refl (conj _ (conj _ (conj _ (conj _ _)))))); auto; easy.
  - inversion_clear F as [|? ? Ff Fs]. destruct (nth (c * faces + f) g1 false) eqn:Eg.
    + set (b := Z.to_nat (Z.quot (nth (c * faces + f) conn 0%Z) (Z.of_nat faces))) in *.
      assert (edge c b) as Ed by (exists f; auto).
      assert (b < n) as Bn by eauto.
      destruct (Nat.eqb_spec (nth b asg 0) 0) as [Z0|Z0].
      * assert (forall x, nth x (set_nth asg b cur) 0 = if x =? b then cur else nth x asg 0) as NB
          by (intros x; apply set_nth_nth; lia).
        assert (clos_refl_trans nat edge i b) as Rb by (eapply rt_trans; [exact Rc|now apply rt_step]).
        destruct (IH (b :: stack) (set_nth asg b cur) asg0 Fs) with (stack' := stack') (asg' := asg')
          as (G' & M & S1 & K & N & St & Nb).
        { now rewrite set_nth_length. }
        { destruct G as [_ G]. split; [now rewrite set_nth_length|]. intros x Hx.
          destruct (G x Hx) as [G1 G2]. rewrite NB. destruct (Nat.eqb_spec x b) as [->|Hne]; [|tauto].
          split; [intros X; rewrite G1 in Z0 by easy; congruence|]. intros _. now right. }
        { exact E. }
        refine (conj G' (conj _ (conj _ (conj _ (conj _ (conj _ _)))))).
        -- cbn [length] in M. pose proof (free_set asg b cur ltac:(lia) Z0 C0). lia.
        -- intros x Hx. apply S1. now right.
        -- intros x Hx Hz. rewrite K; rewrite ?NB; destruct (Nat.eqb_spec x b); subst; easy.
        -- intros x Hx Hz Hz'. destruct (Nat.eqb_spec x b) as [->|Hne].
           ++ split; [apply S1; now left|]. rewrite K; rewrite ?NB, ?Nat.eqb_refl; easy.
           ++ apply N; auto. rewrite NB. destruct (Nat.eqb_spec x b); [easy|easy].
        -- intros x Hx. destruct (St x Hx) as [[<-|Hin]|H]; [right|now left|now right].
           refine (conj Bn (conj _ Rb)). rewrite K; rewrite ?NB, ?Nat.eqb_refl; easy.
        -- intros f' b' [<-|Hin] Hg Hb; [|eauto]. fold b in Hb. subst b'.
           rewrite K; rewrite ?NB, ?Nat.eqb_refl; easy.
      * destruct (IH stack asg asg0 Fs L G stack' asg' E) as (G' & M & S1 & K & N & St & Nb).
        refine (conj G' (conj M (conj S1 (conj K (conj N (conj St _)))))).
        intros f' b' [<-|Hin] Hg Hb; [|eauto]. fold b in Hb. subst b'. now rewrite K.
    + destruct (IH stack asg asg0 Fs L G stack' asg' E) as (G' & M & S1 & K & N & St & Nb).
      refine (conj G' (conj M (conj S1 (conj K (conj N (conj St _)))))).
      intros f' b' [<-|Hin] Hg Hb; [congruence|eauto].
Qed.

Lemma propagate_spec cur i : cur <> 0 -> forall fuel stack asg asg0,
  free asg + length stack <= fuel -> length asg = n -> grows cur i asg0 asg ->
  (forall x, In x stack -> x < n /\ nth x asg 0 = cur /\ clos_refl_trans nat edge i x) ->
  (forall x y, x < n -> nth x asg 0 = cur -> edge x y -> In x stack \/ nth y asg 0 <> 0) ->
  exists asg', propagate faces conn g1 fuel cur stack asg = Some asg' /\ grows cur i asg0 asg' /\
    (forall x, x < n -> nth x asg 0 <> 0 -> nth x asg' 0 = nth x asg 0) /\
    (forall x y, x < n -> nth x asg' 0 = cur -> edge x y -> nth y asg' 0 <> 0).
Proof.
  intros C0. induction fuel as [|fuel IH]; intros stack asg asg0 Fu L G St Cl; destruct stack as [|c stack].
  - exists asg. cbn. refine (conj eq_refl (conj G (conj _ _))); [auto|].
    intros x y Hx Hc He. destruct (Cl x y Hx Hc He); easy.
  - cbn in Fu. lia.
  - exists asg. cbn. refine (conj eq_refl (conj G (conj _ _))); [auto|].
    intros x y Hx Hc He. destruct (Cl x y Hx Hc He); easy.
  - cbn [propagate]. destruct (visit faces conn g1 cur c (seq 0 faces) stack asg) as [stack' asg'] eqn:E.
    destruct (St c (or_introl eq_refl)) as (Cn & Cc & Rc).
    assert (Forall (fun f => f < faces) (seq 0 faces)) as Fa
      by (apply Forall_forall; intros f Hf; apply in_seq in Hf; lia).
    destruct (visit_spec cur c i C0 Cn Rc _ _ _ asg0 Fa L G _ _ E) as (G' & M & S1 & K & N & St' & Nb).
    destruct (IH stack' asg' asg0) as (asg'' & R & G'' & K'' & Cl'').
    + cbn [length] in Fu. lia.
    + apply G'.
    + exact G'.
    + intros x Hx. destruct (St' x Hx) as [Hin|H]; [|exact H].
      destruct (St x (or_intror Hin)) as (A & B & D). refine (conj A (conj _ D)). rewrite K; [easy|easy|lia].
    + intros x y Hx Hc He. destruct (Nat.eq_dec (nth x asg 0) 0) as [Hz|Hz].
      * left. apply N; auto. lia.
      * rewrite K in Hc by easy. destruct (Nat.eq_dec x c) as [->|Hne].
        -- right. destruct He as (f & F1 & F2 & F3). apply (Nb f y); auto. apply in_seq. lia.
        -- destruct (Cl x y Hx Hc He) as [[->|Hin]|Hy]; [easy|left; auto|right].
           rewrite K; [easy|eauto|easy].
    + exists asg''. refine (conj R (conj G'' (conj _ Cl''))). intros x Hx Hz.
      rewrite K''; [now apply K|easy|]. now rewrite K.
Qed.

Definition reach := clos_refl_trans nat edge.
Lemma reach_bound a b : a < n -> reach a b -> b < n.
Proof. intros H R. induction R; eauto. Qed.
Lemma reach_sym a b : a < n -> reach a b -> reach b a.
Proof.
  intros H R. apply clos_rt_rt1n in R. revert H. induction R as [|a b c E R IH]; intros H; [apply rt_refl|].
  eapply rt_trans; [apply IH; eauto|]. apply rt_step. eauto.
Qed.

(** State of the numbering: classes found so far. *)
Definition numbered (done cur : nat) (asg : list nat) : Prop :=
  length asg = n /\ 1 <= cur /\
  (forall x, x < n -> x < done -> nth x asg 0 <> 0) /\
  (forall x, x < n -> nth x asg 0 <> 0 -> nth x asg 0 < cur) /\
  (forall v, 1 <= v < cur -> exists x, x < n /\ nth x asg 0 = v) /\
  (forall x y, x < n -> nth x asg 0 <> 0 -> edge x y -> nth y asg 0 = nth x asg 0) /\
  (forall x y, x < n -> y < n -> nth x asg 0 <> 0 -> nth x asg 0 = nth y asg 0 -> reach x y).

Lemma assign_spec : forall k i cur asg, i + k = n -> numbered i cur asg ->
  exists ids m, assign faces n conn g1 (seq i k) cur asg = Some (ids, m) /\ numbered n m ids.
Proof.
  induction k as [|k IH]; intros i cur asg Hk N.
  - exists asg, cur. replace n with i by lia. rewrite <- Hk in *. rewrite Nat.add_0_r in *. auto.
  - cbn [seq assign]. destruct N as (L & C1 & Do & Lt & Us & Cl & Re).
    destruct (Nat.eqb_spec (nth i asg 0) 0) as [Z0|Z0].
    + assert (i < n) as Hi by lia.
      assert (forall x, nth x (set_nth asg i cur) 0 = if x =? i then cur else nth x asg 0) as NB
        by (intros x; apply set_nth_nth; lia).
      destruct (propagate_spec cur i ltac:(lia) (S (2 * n)) [i] (set_nth asg i cur) asg)
        as (asg' & R & [L' G] & K & C').
      * cbn [length]. assert (free (set_nth asg i cur) <= n); [|lia].
        unfold free. rewrite <- L, <- (set_nth_length asg i cur).
        generalize (set_nth asg i cur). intros l. clear. induction l as [|x l IH]; [easy|].
        cbn [filter]. destruct (Nat.eqb 0 x); cbn [length]; lia.
      * now rewrite set_nth_length.
      * split; [now rewrite set_nth_length|]. intros x Hx. rewrite NB.
        destruct (Nat.eqb_spec x i) as [->|Hne]; [|tauto]. split; [easy|]. intros _. right.
        split; [easy|apply rt_refl].
      * intros x [<-|[]]. rewrite NB, Nat.eqb_refl. split; [easy|]. split; [easy|apply rt_refl].
      * intros x y Hx. rewrite NB. destruct (Nat.eqb_spec x i) as [->|Hne]; [intros; left; now left|].
        intros E. pose proof (Lt x Hx ltac:(lia)). lia.
      * rewrite R. apply IH; [lia|].
        assert (forall x, x < n -> nth x asg 0 <> 0 -> nth x asg' 0 = nth x asg 0) as Old
          by (intros x Hx; apply (G x Hx)).
        assert (forall x, x < n -> nth x asg 0 = 0 -> nth x asg' 0 <> 0 -> nth x asg' 0 = cur /\ reach i x) as New.
        { intros x Hx Hz Hz'. destruct (G x Hx) as [_ G2]. destruct (G2 Hz); [easy|easy]. }
        assert (nth i asg' 0 = cur) as Ni.
        { assert (nth i (set_nth asg i cur) 0 = cur) as X by now rewrite NB, Nat.eqb_refl.
          rewrite K; [exact X|exact Hi|lia]. }
        refine (conj L' (conj _ (conj _ (conj _ (conj _ (conj _ _)))))).
        -- lia.
        -- intros x Hx Hlt. destruct (Nat.eq_dec x i) as [->|Hne]; [lia|].
           rewrite Old; auto; apply Do; lia.
        -- intros x Hx Hz. destruct (Nat.eq_dec (nth x asg 0) 0) as [Hz0|Hz0].
           ++ destruct (New x Hx Hz0 Hz). lia.
           ++ rewrite Old by easy. pose proof (Lt x Hx Hz0). lia.
        -- intros v Hv. destruct (Nat.eq_dec v cur) as [->|Hne]; [exists i; auto|].
           destruct (Us v ltac:(lia)) as (x & Hx & Ex). exists x. split; [easy|]. rewrite Old; [easy|easy|lia].
        -- intros x y Hx Hz He. assert (y < n) as Hy by eauto.
           destruct (Nat.eq_dec (nth x asg 0) 0) as [Hz0|Hz0].
           ++ destruct (New x Hx Hz0 Hz) as [Ec Rx]. pose proof (C' x y Hx Ec He) as Hy0.
              destruct (Nat.eq_dec (nth y asg 0) 0) as [Hy1|Hy1].
              ** destruct (New y Hy Hy1 Hy0). lia.
              ** exfalso. pose proof (Cl y x Hy Hy1 (edge_sym x y Hx He)). lia.
           ++ rewrite (Old x) by easy. rewrite <- (Cl x y Hx Hz0 He). apply Old; [easy|].
              now rewrite (Cl x y Hx Hz0 He).
        -- intros x y Hx Hy Hz E. destruct (Nat.eq_dec (nth x asg 0) 0) as [Hx0|Hx0];
           destruct (Nat.eq_dec (nth y asg 0) 0) as [Hy0|Hy0].
           ++ destruct (New x Hx Hx0 Hz) as [_ Rx]. destruct (New y Hy Hy0 ltac:(lia)) as [_ Ry].
              eapply rt_trans; [apply reach_sym; [exact Hi|exact Rx]|exact Ry].
           ++ destruct (New x Hx Hx0 Hz) as [Ex _]. rewrite (Old y) in E by easy.
              pose proof (Lt y Hy Hy0). lia.
           ++ destruct (New y Hy Hy0 ltac:(lia)) as [Ey _]. rewrite (Old x) in E by easy.
              pose proof (Lt x Hx Hx0). lia.
           ++ apply Re; auto. rewrite <- (Old x), <- (Old y) by easy. exact E.
    + apply IH; [lia|]. refine (conj L (conj C1 (conj _ (conj Lt (conj Us (conj Cl Re)))))).
      intros x Hx Hlt. destruct (Nat.eq_dec x i) as [->|Hne]; [easy|]. apply Do; lia.
Qed.

Lemma nth_repeat' {A} (x d : A) k m : k < m -> nth k (repeat x m) d = x.
Proof. revert k; induction m as [|m IH]; intros [|k] H; cbn; try lia; auto. apply IH. lia. Qed.

Lemma new_ids_spec : exists ids m, new_ids faces n conn g1 = Some (ids, m) /\
  length ids = n /\ 1 <= m /\
  (forall a b, a < n -> b < n -> (nth a ids 0 = nth b ids 0 <-> reach a b)) /\
  (forall v, 1 <= v < m <-> exists a, a < n /\ nth a ids 0 = v).
Proof.
  destruct (assign_spec n 0 1 (repeat 0 n) eq_refl) as (ids & m & E & L & M1 & Do & Lt & Us & Cl & Re).
  { assert (forall x, x < n -> nth x (repeat 0 n) 0 = 0) as Z by (intros; now apply nth_repeat').
    refine (conj (repeat_length _ _) (conj (le_n _) (conj _ (conj _ (conj _ (conj _ _)))))).
    - intros; lia.
    - intros x Hx Hz. rewrite Z in Hz; easy.
    - intros; lia.
    - intros x y Hx Hz. rewrite Z in Hz; easy.
    - intros x y Hx Hy Hz. rewrite Z in Hz; easy. }
  exists ids, m. refine (conj E (conj L (conj M1 (conj _ _)))).
  - intros a b Ha Hb. split; [intros X; apply Re; auto|].
    intros R. apply clos_rt_rt1n in R. revert Ha. induction R as [|a y c Ed R IH]; intros Ha; [easy|].
    rewrite <- (IH Hb) by eauto. symmetry. apply Cl; auto.
  - intros v. split; [apply Us|]. intros (a & Ha & <-). split; [|apply Lt; auto].
    pose proof (Do a Ha Ha). lia.
Qed.
End Fill.

(** * Precomputed smoothness *)
Section Smooth.
Variables (n faces : nat) (conn : list Z) (smooth : nat -> nat -> bool).
Hypothesis faces_pos : 0 < faces.
Hypothesis tab : mutual n faces conn.
Hypothesis sym : forall k l, smooth k l = smooth l k.

(** What the bits should tell. *)
Definition bit (k : nat) : bool :=
  if (nth k conn 0 <? 0)%Z then false else smooth k (Z.to_nat (nth k conn 0%Z)).

Lemma link k : k < n * faces -> (0 <= nth k conn 0)%Z ->
  let l := Z.to_nat (nth k conn 0%Z) in
  l < n * faces /\ nth l conn 0%Z = Z.of_nat k /\ bit l = bit k /\ nth k conn 0%Z = Z.of_nat l.
Proof.
  intros H P l. destruct (tab k H) as [N|(l' & E & B & E')]; [lia|].
  assert (l = l') as -> by (unfold l; rewrite E; lia).
  refine (conj B (conj E' (conj _ E))). unfold bit. rewrite E, E'.
  destruct (Z.ltb_spec (Z.of_nat k) 0); [lia|]. destruct (Z.ltb_spec (Z.of_nat l') 0); [lia|].
  rewrite !Nat2Z.id. apply sym.
Qed.

Lemma div_quot c : (0 <= c)%Z -> Z.quot c (Z.of_nat faces) = Z.of_nat (Z.to_nat c / faces).
Proof.
  intros H. rewrite Z.quot_div_nonneg by lia.
  rewrite <- (Z2Nat.id c) at 1 by lia. now rewrite <- Nat2Z.inj_div.
Qed.

(** Bits after the faces below [j]. *)
Definition upto (j : nat) (g : list bool) : Prop :=
  length g = n * faces /\
  forall k, k < n * faces ->
    nth k g false =
      if (0 <=? nth k conn 0)%Z &&
         ((k <? j) && (k / faces <=? Z.to_nat (nth k conn 0%Z) / faces)
          || (Z.to_nat (nth k conn 0%Z) <? j) && (Z.to_nat (nth k conn 0%Z) / faces <=? k / faces))
      then bit k else false.

Lemma g1_step j g : first_linked n faces conn -> j < n * faces -> upto j g ->
  exists g', g1_face faces conn smooth g j = Some g' /\ upto (S j) g'.
Proof.
  intros FL Hj [L U]. unfold g1_face. set (c := nth j conn 0%Z).
  destruct (Z.ltb_spec (Z.quot c (Z.of_nat faces)) (Z.of_nat (j / faces))) as [B|B].
  - exists g. split; [easy|]. split; [exact L|]. intros k Hk. rewrite U by easy.
    destruct (Z.leb_spec 0 (nth k conn 0%Z)) as [P|P]; [|easy]. cbn [andb].
    destruct (link k Hk P) as (Hl & El & _ & Ek). set (l := Z.to_nat (nth k conn 0%Z)) in *.
    match goal with |- (if ?a then _ else _) = (if ?b then _ else _) => enough (a = b) as -> by easy end.
    apply eq_true_iff_eq. rewrite !orb_true_iff, !andb_true_iff, !Nat.ltb_lt, !Nat.leb_le.
    split; [intuition lia|]. intros [[X Y]|[X Y]].
    + left. split; [|easy]. destruct (Nat.eq_dec k j) as [->|]; [|lia]. exfalso.
      rewrite div_quot in B by easy. change (Z.to_nat c) with l in B. lia.
    + right. split; [|easy]. destruct (Nat.eq_dec l j) as [Ej|]; [|lia]. exfalso.
      rewrite Ej in El, Y. unfold c in B. rewrite El, div_quot, Nat2Z.id in B by lia. lia.
  - destruct (Z.ltb_spec c 0) as [N|N].
    + exfalso. assert (j < faces \/ faces <= j) as [X|X] by lia.
      * destruct (FL j X Hj) as [Q|Q]; fold c in Q; [lia|].
        rewrite (Nat.div_small j faces X) in B.
        pose proof (Z.quot_le_mono c (- Z.of_nat faces) (Z.of_nat faces) ltac:(lia) Q) as M.
        rewrite Z.quot_opp_l, Z.quot_same in M by lia. lia.
      * assert (1 <= j / faces) by (apply Nat.div_le_lower_bound; lia).
        pose proof (Z.quot_le_mono c 0 (Z.of_nat faces) ltac:(lia) ltac:(lia)) as M.
        rewrite Z.quot_0_l in M by lia. lia.
    + rewrite div_quot in B by easy. destruct (link j Hj N) as (Hl & El & Bl & Ej). cbn zeta in *. fold c in Hl, El, Bl, Ej.
      set (l := Z.to_nat c) in *. eexists. split; [reflexivity|].
      assert (smooth j l = bit j) as Es.
      { unfold bit. fold c. destruct (Z.ltb_spec c 0); [lia|]. reflexivity. }
      rewrite Es. split; [now rewrite !set_nth_length|]. intros k Hk.
      rewrite set_nth_nth by now rewrite set_nth_length, L.
      rewrite set_nth_nth by now rewrite L. rewrite U by easy.
      destruct (Nat.eqb_spec k l) as [->|Nl].
      { rewrite El, Nat2Z.id. destruct (Z.leb_spec 0 (Z.of_nat j)); [|lia]. cbn [andb].
        assert (((l <? S j) && (l / faces <=? j / faces) || (j <? S j) && (j / faces <=? l / faces)) = true) as ->.
        { apply orb_true_iff. right. apply andb_true_iff. split; [apply Nat.ltb_lt; lia|apply Nat.leb_le; lia]. }
        easy. }
      destruct (Nat.eqb_spec k j) as [->|Nj].
      { fold c. destruct (Z.leb_spec 0 c); [|lia]. cbn [andb]. fold l.
        assert (((j <? S j) && (j / faces <=? l / faces) || (l <? S j) && (l / faces <=? j / faces)) = true) as ->.
        { apply orb_true_iff. left. apply andb_true_iff. split; [apply Nat.ltb_lt; lia|apply Nat.leb_le; lia]. }
        easy. }
      destruct (Z.leb_spec 0 (nth k conn 0%Z)) as [P|P]; [|easy]. cbn [andb].
      destruct (link k Hk P) as (Hl' & El' & _ & Ek). set (l' := Z.to_nat (nth k conn 0%Z)) in *.
      assert (l' <> j) as Nl'. { intros ->. fold c in El'. unfold l in Nl. rewrite El' in Nl. lia. }
      match goal with |- (if ?a then _ else _) = (if ?b then _ else _) => enough (a = b) as -> by easy end.
      apply eq_true_iff_eq. rewrite !orb_true_iff, !andb_true_iff, !Nat.ltb_lt, !Nat.leb_le.
      intuition lia.
Qed.

Lemma g1_run : first_linked n faces conn -> forall m j g, j + m = n * faces -> upto j g ->
  exists g', g1_faces faces conn smooth (seq j m) g = Some g' /\ upto (n * faces) g'.
Proof.
  intros FL. induction m as [|m IH]; intros j g E U.
  - exists g. split; [easy|]. now replace (n * faces) with j by lia.
  - cbn [seq g1_faces]. destruct (g1_step j g FL ltac:(lia) U) as (g' & R & U'). rewrite R.
    apply IH; [lia|easy].
Qed.

Definition right_bits (g : list bool) : Prop :=
  length g = n * faces /\ forall k, k < n * faces -> nth k g false = bit k.

Lemma precompute_run : first_linked n faces conn ->
  exists g, precompute faces n conn smooth = Some g /\ right_bits g.
Proof.
  intros FL. destruct (g1_run FL (n * faces) 0 (repeat false (n * faces)) eq_refl) as (g & E & L & U).
  { split; [apply repeat_length|]. intros k Hk. rewrite nth_repeat' by easy.
    destruct (Nat.ltb_spec k 0); [lia|]. destruct (Nat.ltb_spec (Z.to_nat (nth k conn 0%Z)) 0); [lia|].
    cbn. now rewrite andb_false_r. }
  exists g. refine (conj E (conj L _)). intros k Hk. rewrite U by easy.
  destruct (Z.leb_spec 0 (nth k conn 0%Z)) as [P|P]; cbn [andb].
  - destruct (link k Hk P) as (Hl & _). set (l := Z.to_nat (nth k conn 0%Z)) in *.
    assert (((k <? n * faces) && (k / faces <=? l / faces) || (l <? n * faces) && (l / faces <=? k / faces)) = true) as ->; [|easy].
    apply orb_true_iff. rewrite !andb_true_iff, !Nat.ltb_lt, !Nat.leb_le. lia.
  - unfold bit. destruct (Z.ltb_spec (nth k conn 0%Z) 0); [easy|lia].
Qed.

Lemma edge_touches g a b : right_bits g -> a < n -> (edge faces conn g a b <-> touches n faces conn smooth a b).
Proof.
  intros [L R] Ha. split.
  - intros (f & Hf & Hg & ->). assert (a * faces + f < n * faces) as Hk by nia.
    rewrite R in Hg by easy. unfold bit in Hg.
    destruct (Z.ltb_spec (nth (a * faces + f) conn 0%Z) 0) as [N|N]; [easy|].
    destruct (link _ Hk N) as (Hl & El & _ & Ek).
    exists (a * faces + f), (Z.to_nat (nth (a * faces + f) conn 0%Z)).
    refine (conj Hk (conj Hl (conj Ek (conj Hg (conj _ _))))).
    + rewrite Nat.div_add_l, Nat.div_small; lia.
    + rewrite div_quot by easy. now rewrite Nat2Z.id.
  - intros (k & l & Hk & Hl & E & S1 & <- & <-). exists (k mod faces).
    assert (k / faces * faces + k mod faces = k) as ->.
    { rewrite Nat.mul_comm. symmetry. apply Nat.div_mod. lia. }
    refine (conj _ (conj _ _)).
    + apply Nat.mod_upper_bound. lia.
    + rewrite R by easy. unfold bit. rewrite E, Nat2Z.id. now destruct (Z.ltb_spec (Z.of_nat l) 0); [lia|].
    + rewrite E, div_quot by lia. now rewrite !Nat2Z.id.
Qed.
Lemma touches_bound a b : touches n faces conn smooth a b -> a < n /\ b < n.
Proof.
  intros (k & l & Hk & Hl & _ & _ & <- & <-). split; apply Nat.div_lt_upper_bound; lia.
Qed.
Lemma touches_sym a b : touches n faces conn smooth a b -> touches n faces conn smooth b a.
Proof.
  intros (k & l & Hk & Hl & E & S1 & A & B). exists l, k.
  destruct (link k Hk ltac:(lia)) as (_ & E' & _ & _). rewrite E, Nat2Z.id in E'.
  rewrite sym. tauto.
Qed.

Lemma classes_run g : right_bits g ->
  exists ids m, new_ids faces n conn g = Some (ids, S m) /\ classes n faces conn smooth ids m.
Proof.
  intros R.
  destruct (new_ids_spec n faces conn g) as (ids & m & E & L & M & C & V).
  { intros a b Ha Hab. apply (edge_touches g) in Hab; auto. now apply touches_bound in Hab. }
  { intros a b Ha Hab. apply (edge_touches g) in Hab; auto. pose proof (touches_bound _ _ Hab) as [_ Hb].
    apply (edge_touches g); auto. now apply touches_sym. }
  exists ids, (pred m). replace (S (pred m)) with m by lia. refine (conj E (conj L (conj _ _))).
  - intros a b Ha Hb. rewrite C by easy. unfold chain, reach.
    split; intros X; apply clos_rt_rt1n in X; apply clos_rt1n_rt; revert Ha; induction X as [|x y z Xe Xr IH]; intros Ha;
      try apply rt1n_refl.
    + apply (edge_touches g) in Xe; auto. eapply Relation_Operators.rt1n_trans; [exact Xe|]. apply IH; auto. now apply touches_bound in Xe.
    + pose proof (touches_bound _ _ Xe). apply (edge_touches g) in Xe; auto.
      eapply Relation_Operators.rt1n_trans; [exact Xe|]. apply IH; tauto.
  - intros v. rewrite <- V. lia.
Qed.

(** The bit assignments of several threads, if single bits could be written. *)
Definition put_bits (g : list bool) (ws : list (nat * bool)) : list bool :=
  fold_left (fun g w => set_nth g (fst w) (snd w)) ws g.

Lemma put_bits_spec ws : forall g, length g = n * faces ->
  (forall k b, In (k, b) ws -> k < n * faces /\ b = bit k) ->
  length (put_bits g ws) = n * faces /\
  forall k, nth k (put_bits g ws) false = if existsb (fun w => k =? fst w) ws then bit k else nth k g false.
Proof.
  induction ws as [|[k b] ws IH]; intros g L H; cbn; [auto|].
  destruct (H k b (or_introl eq_refl)) as [Hk ->].
  destruct (IH (set_nth g k (bit k))) as [A B].
  - now rewrite set_nth_length.
  - intros; apply H; now right.
  - split; [exact A|]. intros j. unfold put_bits in B. rewrite B, set_nth_nth by now rewrite L.
    destruct (Nat.eqb_spec j k) as [->|]; cbn; [|easy]. now destruct (existsb _ ws).
Qed.

Lemma in_bit_writes ps k b : In (k, b) (bit_writes faces conn smooth ps) <->
  exists i j, In i ps /\ j < faces /\ let c := nth (i * faces + j) conn 0%Z in
    (Z.of_nat i <= Z.quot c (Z.of_nat faces))%Z /\ b = smooth (i * faces + j) (Z.to_nat c) /\
    (k = i * faces + j \/ k = Z.to_nat c).
Proof.
  unfold bit_writes. rewrite in_flat_map. split.
  - intros (i & Hi & H). apply in_flat_map in H as (j & Hj & H). apply in_seq in Hj.
    exists i, j. refine (conj Hi (conj _ _)); [lia|]. cbn zeta in *.
    destruct (Z.ltb_spec (Z.quot (nth (i * faces + j) conn 0%Z) (Z.of_nat faces)) (Z.of_nat i)); [easy|].
    split; [easy|]. destruct H as [[= <- <-]|[[= <- <-]|[]]]; auto.
  - intros (i & j & Hi & Hj & A & -> & B). exists i. split; [easy|]. apply in_flat_map. exists j.
    split; [apply in_seq; lia|]. cbn zeta.
    destruct (Z.ltb_spec (Z.quot (nth (i * faces + j) conn 0%Z) (Z.of_nat faces)) (Z.of_nat i)); [lia|].
    destruct B as [->| ->]; [now left|right; now left].
Qed.

(** Any distribution of the patches over threads and any order of the bit writes
    gives the right bits, provided that single bits can be written. *)
Lemma bits_any_order ps ws : first_linked n faces conn -> Permutation ps (seq 0 n) ->
  Permutation ws (bit_writes faces conn smooth ps) ->
  right_bits (put_bits (repeat false (n * faces)) ws).
Proof.
  intros FL Pp Pw.
  assert (forall i j, i < n -> j < faces ->
    (Z.of_nat i <= Z.quot (nth (i * faces + j) conn 0%Z) (Z.of_nat faces))%Z ->
    (0 <= nth (i * faces + j) conn 0)%Z) as NN.
  { intros i j Hi Hj Q. destruct (Z.le_gt_cases 0 (nth (i * faces + j) conn 0%Z)) as [|N]; [easy|exfalso].
    destruct i as [|i].
    - cbn in *. destruct (FL j Hj ltac:(nia)) as [?|X]; [lia|].
      pose proof (Z.quot_le_mono _ (- Z.of_nat faces) (Z.of_nat faces) ltac:(lia) X) as M.
      rewrite Z.quot_opp_l, Z.quot_same in M by lia. lia.
    - pose proof (Z.quot_le_mono (nth (S i * faces + j) conn 0%Z) 0 (Z.of_nat faces) ltac:(lia) ltac:(lia)) as M.
      rewrite Z.quot_0_l in M by lia. lia. }
  assert (forall i, In i ps <-> i < n) as Ips.
  { intros i. split; intros H.
    - apply (Permutation_in _ Pp), in_seq in H. lia.
    - apply (Permutation_in _ (Permutation_sym Pp)), in_seq. lia. }
  destruct (put_bits_spec ws (repeat false (n * faces))) as [A B].
  - apply repeat_length.
  - intros k b H. apply (Permutation_in _ Pw), in_bit_writes in H as (i & j & Hi & Hj & Q & -> & K).
    apply Ips in Hi. assert (i * faces + j < n * faces) as Hk by nia.
    pose proof (NN i j Hi Hj Q) as P. destruct (link _ Hk P) as (Hl & El & Bl & Ek).
    assert (bit (i * faces + j) = smooth (i * faces + j) (Z.to_nat (nth (i * faces + j) conn 0%Z))) as Eb.
    { unfold bit. destruct (Z.ltb_spec (nth (i * faces + j) conn 0%Z) 0); [lia|easy]. }
    destruct K as [->| ->]; [auto|]. split; [easy|]. now rewrite Bl.
  - split; [exact A|]. intros k Hk. rewrite B.
    destruct (existsb (fun w => k =? fst w) ws) eqn:X; [easy|].
    rewrite nth_repeat' by easy. unfold bit.
    destruct (Z.ltb_spec (nth k conn 0%Z) 0) as [N|N]; [easy|]. exfalso.
    destruct (link k Hk N) as (Hl & El & _ & Ek). set (l := Z.to_nat (nth k conn 0%Z)) in *.
    assert (exists b, In (k, b) (bit_writes faces conn smooth ps)) as (b & Hb).
    { assert (forall m, m < n * faces -> m / faces * faces + m mod faces = m /\ m / faces < n /\ m mod faces < faces) as DM.
      { intros m Hm. refine (conj _ (conj _ _)).
        - rewrite Nat.mul_comm. symmetry. apply Nat.div_mod. lia.
        - apply Nat.div_lt_upper_bound; lia.
        - apply Nat.mod_upper_bound. lia. }
      destruct (Nat.le_gt_cases (k / faces) (l / faces)) as [C|C].
      - destruct (DM k Hk) as (E1 & E2 & E3).
        eexists. apply in_bit_writes. exists (k / faces), (k mod faces). cbn zeta. rewrite E1.
        refine (conj _ (conj E3 (conj _ (conj eq_refl (or_introl eq_refl))))); [now apply Ips|].
        rewrite div_quot by easy. fold l. lia.
      - destruct (DM l Hl) as (E1 & E2 & E3).
        eexists. apply in_bit_writes. exists (l / faces), (l mod faces). cbn zeta. rewrite E1.
        refine (conj _ (conj E3 (conj _ (conj eq_refl (or_intror _))))); [now apply Ips| |].
        + rewrite El, div_quot, Nat2Z.id by lia. lia.
        + rewrite El. lia. }
    apply (Permutation_in _ (Permutation_sym Pw)) in Hb.
    assert (existsb (fun w => k =? fst w) ws = true); [|congruence].
    apply existsb_exists. exists (k, b). split; [easy|]. cbn. apply Nat.eqb_refl.
Qed.
End Smooth.

(** * Writing the ids *)
Lemma write_ids_spec t : forall ids,
  length (filter (fun v => v <? 0)%Z t) = length ids ->
  exists t', write_ids t ids = Some t' /\ labelled t ids t'.
Proof.
  unfold labelled, rank. induction t as [|v t IH]; intros ids L; cbn [filter] in L; cbn [write_ids].
  - destruct ids; [|easy]. exists []. cbn. refine (conj eq_refl (conj eq_refl _)). intros; lia.
  - destruct (Z.ltb_spec v 0) as [N|N].
    + destruct ids as [|b ids]; [easy|]. cbn [length] in L. destruct (IH ids ltac:(lia)) as (t' & E & L' & H).
      exists (- Z.of_nat b :: t')%Z. rewrite E. refine (conj eq_refl (conj _ _)); [cbn; lia|].
      intros [|i] Hi; cbn [nth firstn filter length]; [split; [lia|easy]|].
      cbn [length] in Hi. destruct (H i ltac:(lia)) as [H1 H2].
      destruct (Z.ltb_spec v 0); [|lia]. cbn [length nth]. auto.
    + destruct (IH ids L) as (t' & E & L' & H). exists (v :: t'). rewrite E.
      refine (conj eq_refl (conj _ _)); [cbn; lia|].
      intros [|i] Hi; cbn [nth firstn filter length]; [split; [easy|lia]|].
      cbn [length] in Hi. destruct (H i ltac:(lia)) as [H1 H2].
      destruct (Z.ltb_spec v 0); [lia|]. auto.
Qed.
Lemma write_ids_fail t : forall ids,
  length (filter (fun v => v <? 0)%Z t) <> length ids -> write_ids t ids = None.
Proof.
  induction t as [|v t IH]; intros ids L; cbn [filter] in L; cbn [write_ids].
  - now destruct ids.
  - destruct (Z.ltb_spec v 0) as [N|N].
    + destruct ids as [|b ids]; [easy|]. rewrite IH; [easy|]. cbn [length] in L. lia.
    + now rewrite IH.
Qed.
