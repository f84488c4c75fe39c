(** Proofs about elevate_degrees. *)
From Coq Require Import List Arith Bool Lia ZArith QArith Qcanon Sorted.
From Verif Require Import Base BaseQc S_Spline S_Value S_Knots M_Knots P_Knots P_Insert
  M_Core S_Core P_Core P_State M_Elevate S_Elevate.
Import ListNotations.
Local Open Scope nat_scope.

(** * Integers as rationals *)
Lemma zq_lt a b : (zq a < zq b)%Qc <-> (a < b)%Z.
Proof.
  unfold zq, Qclt. cbn [this Q2Qc]. rewrite (Qlt_compat _ _ (Qred_correct _) _ _ (Qred_correct _)).
  unfold Qlt. cbn. lia.
Qed.
Lemma zq_inj a b : zq a = zq b -> a = b.
Proof.
  intros H. destruct (Z.lt_trichotomy a b) as [L|[L|L]]; auto; apply zq_lt in L; rewrite H in L;
    exfalso; revert L; apply Qlt_irrefl.
Qed.
Lemma zq_sub a b : (zq a - zq b)%Qc = zq (a - b).
Proof.
  apply Qc_is_canon. unfold zq, Qcminus, Qcplus, Qcopp. cbn [this Q2Qc]. rewrite !Qred_correct.
  unfold Qeq. cbn. lia.
Qed.
Lemma zq_1 : zq 1 = 1%Qc. Proof. reflexivity. Qed.
Lemma zq_opp a : (- zq a)%Qc = zq (- a).
Proof. replace (- a)%Z with (0 - a)%Z by lia. rewrite <- zq_sub. change (zq 0) with 0%Qc. ring. Qed.
Lemma near_int a b : near 1%Qc (zq a) (zq b) = Z.eqb a b.
Proof.
  unfold near. rewrite zq_sub. destruct (Z.eqb_spec a b) as [->|N].
  - rewrite Z.sub_diag. reflexivity.
  - destruct (qltb_spec (qabs (zq (a - b))) 1%Qc) as [L|L]; auto. exfalso.
    unfold qabs in L. destruct (Qclt_le_dec (zq (a - b)) 0%Qc) as [G|G].
    + change 0%Qc with (zq 0) in G. apply (proj1 (zq_lt _ _)) in G. rewrite zq_opp, <- zq_1 in L. apply (proj1 (zq_lt _ _)) in L. lia.
    + rewrite <- zq_1 in L. apply (proj1 (zq_lt _ _)) in L. assert (a - b = 0)%Z; [|lia].
      assert (~ (a - b < 0)%Z) by (intros K; apply (proj2 (zq_lt _ _)) in K; revert K; apply Qle_not_lt; exact G). lia.
Qed.

Lemma nth_zq i dims : nth i (map zq dims) 0%Qc = zq (nth i dims 0%Z).
Proof. apply (map_nth zq dims 0%Z). Qed.

Lemma ints_apart dims : apart 1%Qc (map zq dims).
Proof.
  intros x y Hx Hy. apply in_map_iff in Hx, Hy. destruct Hx as [a [<- _]], Hy as [b [<- _]].
  destruct (Z.eq_dec a b) as [->|N]; [now left|right].
  assert (E := near_int a b). destruct (Z.eqb_spec a b); [easy|].
  unfold near in E. destruct (qltb_spec (qabs (zq a - zq b)%Qc) 1%Qc) as [|G]; [easy|]. qlra.
Qed.

Lemma sorted_ints dims : exists uz, StronglySorted Z.lt uz /\ forall z, In z uz <-> In z dims.
Proof.
  destruct (distinct_exists (map zq dims)) as [us [S0 E]].
  assert (X : exists uz, us = map zq uz).
  { assert (F : Forall (fun x => exists z, x = zq z) us).
    { apply Forall_forall. intros x Hx. apply E, in_map_iff in Hx. destruct Hx as [z [<- _]]. eauto. }
    clear - F. induction F as [|x l [z ->] F [uz ->]]; [exists []; reflexivity|]. exists (z :: uz). reflexivity. }
  destruct X as [uz ->]. exists uz. split.
  - clear E. induction uz as [|z uz IH]; constructor; inversion S0 as [|? ? S1 F]; subst; auto.
    rewrite Forall_map in F. eapply Forall_impl; [|exact F]. intros a. apply zq_lt.
  - intros z. split; intros H.
    + apply (in_map zq) in H. apply E, in_map_iff in H. destruct H as [y [Hy H]]. apply zq_inj in Hy. now subst.
    + apply (in_map zq) in H. apply E, in_map_iff in H. destruct H as [y [Hy H]]. apply zq_inj in Hy. now subst.
Qed.

Lemma requests_ints z dims : requests (zq z) (map zq dims) = count_occ Z.eq_dec dims z.
Proof.
  unfold requests. induction dims as [|y dims IH]; cbn; [reflexivity|].
  destruct (qeqb_spec (zq z) (zq y)) as [E|E], (Z.eq_dec y z) as [G|G]; cbn; try congruence.
  - apply zq_inj in E. congruence.
Qed.

Section Loop.
Context (elev : spline -> nat -> nat -> spline).

Fixpoint elevate_list (dims uz : list Z) (s : spline) : elevation :=
  match uz with
  | [] => Elevated s
  | d :: uz =>
      if (negb (d <? Z.of_nat (length (sp_axes s))) || (d <? 0))%Z then Stopped s
      else elevate_list dims uz (elev s (Z.to_nat d) (count_occ Z.eq_dec dims d))
  end.

Lemma elevate_core_eq s dims uz : dims <> [] -> StronglySorted Z.lt uz ->
  (forall z, In z uz <-> In z dims) ->
  elevate_core elev s dims = Some (elevate_list dims uz s).
Proof.
  intros NE S0 E. set (us := map zq uz). set (ks := map zq dims).
  assert (S1 : StronglySorted Qclt us).
  { unfold us. clear - S0. induction S0 as [|z l S1 IH F]; cbn; constructor; auto.
    rewrite Forall_map. eapply Forall_impl; [|exact F]. intros a. apply zq_lt. }
  assert (E1 : forall x, In x us <-> In x ks).
  { intros x. unfold us, ks. rewrite !in_map_iff. split; intros [z [<- H]]; exists z; split; auto; now apply E. }
  assert (NU : us <> []).
  { unfold us. destruct dims as [|z dims]; [easy|]. destruct uz as [|]; [|discriminate].
    exfalso. apply (E z). now left. }
  assert (P : (0 < 1)%Qc) by reflexivity.
  unfold elevate_core. fold ks.
  assert (EU : std_unique (fun a b => Z.eqb (nth a dims 0%Z) (nth b dims 0%Z)) (stable_argsort ks) =
               std_unique (fun a b => near 1%Qc (nth a ks 0%Qc) (nth b ks 0%Qc)) (stable_argsort ks)).
  { assert (X : forall a b, near 1%Qc (nth a ks 0%Qc) (nth b ks 0%Qc) = Z.eqb (nth a dims 0%Z) (nth b dims 0%Z)).
    { intros a b. unfold ks. rewrite !nth_zq. apply near_int. }
    destruct (stable_argsort ks) as [|x l]; [reflexivity|]. cbn. f_equal. revert x.
    induction l as [|y l IH]; intros x; cbn; [reflexivity|]. rewrite X.
    destruct (Z.eqb _ _); rewrite IH; reflexivity. }
  rewrite EU. rewrite (argsort_groups 1%Qc ks us S1 E1).
  rewrite (std_unique_groups 1%Qc ks us P (ints_apart dims) E1 us S1 (incl_refl _)).
  rewrite (multiplicities_groups 1%Qc ks us E1 us S1 (incl_refl _) NU).
  f_equal. clear NU EU.
  assert (X : forall l s, incl l uz ->
    elevate_groups elev dims
      (map (fun x => hd 0 (filter (fun i => qeqb x (nth i ks 0%Qc)) (seq 0 (length ks)))) (map zq l))
      (map (fun x => requests x ks) (map zq l)) s = elevate_list dims l s).
  2:{ apply X, incl_refl. }
  clear s. intros l.
  induction l as [|z l IH]; intros s I; cbn [map elevate_groups elevate_list]; [reflexivity|].
  destruct (group_first 1%Qc ks us E1 (zq z)) as [g [_ [_ [_ [Ef _]]]]].
  { unfold us. apply in_map, I. now left. }
  unfold ks at 3 in Ef. rewrite nth_zq in Ef. apply zq_inj in Ef. rewrite Ef.
  replace (requests (zq z) ks) with (count_occ Z.eq_dec dims z) by (symmetry; apply requests_ints).
  destruct (negb _ || _); [reflexivity|]. apply IH. intros y Hy. apply I. now right.
Qed.

Hypothesis Elev : raises_degree elev.

Lemma elevate_list_valid dims uz s : Forall (valid_dim s) uz -> StronglySorted Z.lt uz ->
  exists s', elevate_list dims uz s = Elevated s' /\ length (sp_axes s') = length (sp_axes s) /\
    forall i, nth i (map ax_degree (sp_axes s')) 0 = nth i (map ax_degree (sp_axes s)) 0 +
      (if in_dec Z.eq_dec (Z.of_nat i) uz then asked dims i else 0).
Proof.
  intros V S0; revert s V; induction S0 as [|z l S1 IH F]; intros s V; cbn [elevate_list].
  - exists s. split; [reflexivity|]. split; [reflexivity|]. intros i. cbn. lia.
  - inversion V as [|? ? Vz Vl]; subst. destruct Vz as [Z1 Z2].
    destruct (Z.ltb_spec z (Z.of_nat (length (sp_axes s)))); [|lia].
    destruct (Z.ltb_spec z 0); [lia|]. cbn [negb orb].
    destruct (Elev s (Z.to_nat z) (count_occ Z.eq_dec dims z)) as [L D]; [lia|].
    destruct (IH (elev s (Z.to_nat z) (count_occ Z.eq_dec dims z))) as [s' [E' [L' D']]].
    { eapply Forall_impl; [|exact Vl]. intros y. unfold valid_dim. rewrite L. auto. }
    exists s'. split; [exact E'|]. split; [congruence|]. intros i. rewrite D', D.
    destruct (Nat.eqb_spec i (Z.to_nat z)) as [->|Ni].
    + rewrite Z2Nat.id by auto.
      destruct (in_dec Z.eq_dec z (z :: l)) as [_|G]; [|exfalso; apply G; now left].
      destruct (in_dec Z.eq_dec z l) as [G|_].
      { exfalso. rewrite Forall_forall in F. specialize (F z G). lia. }
      unfold asked. rewrite Z2Nat.id by auto. lia.
    + destruct (in_dec Z.eq_dec (Z.of_nat i) (z :: l)) as [G'|G'], (in_dec Z.eq_dec (Z.of_nat i) l) as [G|G];
        try lia.
      * exfalso. destruct G' as [G'|G']; [lia|easy].
      * exfalso. apply G'. now right.
Qed.

Lemma elevate_valid s dims : dims <> [] -> Forall (valid_dim s) dims ->
  exists s', elevate_core elev s dims = Some (Elevated s') /\ length (sp_axes s') = length (sp_axes s) /\
    forall i, nth i (map ax_degree (sp_axes s')) 0 = nth i (map ax_degree (sp_axes s)) 0 + asked dims i.
Proof.
  intros NE V. destruct (sorted_ints dims) as [uz [S0 E]].
  rewrite (elevate_core_eq s dims uz NE S0 E).
  destruct (elevate_list_valid dims uz s) as [s' [E' [L D]]]; auto.
  { rewrite Forall_forall in *. intros z Hz. apply V, E, Hz. }
  exists s'. split; [congruence|]. split; [exact L|]. intros i. rewrite D.
  destruct (in_dec Z.eq_dec (Z.of_nat i) uz) as [G|G]; [reflexivity|].
  unfold asked. rewrite (proj1 (count_occ_not_In Z.eq_dec dims (Z.of_nat i))); [reflexivity|].
  intros K. apply G, E, K.
Qed.

Lemma elevate_negative s dims d : In d dims -> (d < 0)%Z ->
  elevate_core elev s dims = Some (Stopped s).
Proof.
  intros I L. destruct (sorted_ints dims) as [uz [S0 E]].
  rewrite (elevate_core_eq s dims uz) by (auto; intros ->; easy).
  assert (Id : In d uz) by now apply E.
  destruct uz as [|z uz]; [easy|]. cbn.
  assert (z <= d)%Z.
  { destruct Id as [->|Id]; [lia|]. inversion S0 as [|? ? _ F]; subst. rewrite Forall_forall in F.
    specialize (F d Id). lia. }
  destruct (Z.ltb_spec z 0); [|lia]. rewrite orb_true_r. reflexivity.
Qed.

(** An invalid dimension always raises. *)
Lemma elevate_invalid s dims d : In d dims -> ~ valid_dim s d ->
  exists s', elevate_core elev s dims = Some (Stopped s').
Proof.
  intros I L. destruct (sorted_ints dims) as [uz [S0 E]].
  rewrite (elevate_core_eq s dims uz) by (auto; intros ->; easy).
  assert (Id : In d uz) by now apply E. clear E S0. 
  revert s L; induction uz as [|z uz IH]; intros s L; [easy|]. cbn.
  destruct (Z.ltb_spec z (Z.of_nat (length (sp_axes s)))); cbn; [|eauto].
  destruct (Z.ltb_spec z 0); cbn; [eauto|].
  destruct Id as [->|Id]; [exfalso; apply L; unfold valid_dim; lia|].
  apply (IH Id). unfold valid_dim in *. 
  destruct (Elev s (Z.to_nat z) (count_occ Z.eq_dec dims z)) as [-> _]; [lia|]. exact L.
Qed.
End Loop.

(** * elevate_degrees *)

Lemma elevate_ok elev st s dims : raises_degree elev -> s_core st = Some s -> dims <> [] ->
  Forall (valid_dim s) dims ->
  exists s' st', elevate_degrees elev st dims = Some (Done st') /\ s_core st' = Some s' /\
    length (sp_axes s') = length (sp_axes s) /\
    (forall i, nth i (map ax_degree (sp_axes s')) 0 = nth i (map ax_degree (sp_axes s)) 0 + asked dims i) /\
    degrees_agree st' s'.
Proof.
  intros R Es NE V. destruct (elevate_valid elev R s dims NE V) as [s' [E [L D]]].
  unfold elevate_degrees. rewrite Es, E. eexists s', _. split; [reflexivity|].
  split; [reflexivity|]. split; [exact L|]. split; [exact D|]. reflexivity.
Qed.

Lemma elevate_negative_unchanged elev st s dims d : s_core st = Some s -> In d dims -> (d < 0)%Z ->
  elevate_degrees elev st dims = Some (Raised st).
Proof.
  intros Es I L. unfold elevate_degrees. rewrite Es, (elevate_negative elev s dims d I L).
  rewrite <- Es. destruct st; reflexivity.
Qed.

Lemma elevate_invalid_raises elev st s dims d : raises_degree elev -> s_core st = Some s ->
  In d dims -> ~ valid_dim s d -> exists st', elevate_degrees elev st dims = Some (Raised st').
Proof.
  intros R Es I L. destruct (elevate_invalid elev R s dims d I L) as [s' E].
  unfold elevate_degrees. rewrite Es, E. eauto.
Qed.

(** A library that satisfies the contract. *)
Definition bump (m : nat) (a : paxis) : paxis :=
  match a with BezierAxis p => BezierAxis (p + m) | KnotAxis p kv => KnotAxis (p + m) kv end.
Definition simple_elev (s : spline) (d m : nat) : spline :=
  Spl (set_nth (sp_axes s) d (bump m (nth d (sp_axes s) (BezierAxis 0)))) (sp_cps s) (sp_weights s).
Lemma simple_elev_ok : raises_degree simple_elev.
Proof.
  intros s d m Hd. cbn. split; [apply set_nth_length|]. intros i.
  set (l := sp_axes s) in *. clearbody l. clear s.
  destruct (Nat.lt_ge_cases i (length l)) as [Hi|Hi].
  - assert (X : forall l', nth i (map ax_degree l') 0 = ax_degree (nth i l' (BezierAxis 0)))
      by (intros; apply (map_nth ax_degree _ (BezierAxis 0))).
    rewrite !X, set_nth_nth by auto.
    destruct (Nat.eqb_spec i d) as [->|]; [|lia]. destruct (nth d l (BezierAxis 0)); reflexivity.
  - rewrite !nth_overflow by (rewrite map_length; try rewrite set_nth_length; lia).
    destruct (Nat.eqb_spec i d); lia.
Qed.
