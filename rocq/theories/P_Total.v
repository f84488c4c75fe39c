(** Errors that are small or bounded against w - u, and derivatives with respect to the
    coordinates of a geometry. *)
From Coq Require Import List Arith Lia ZArith Bool QArith Qcanon Lqa.
From Verif Require Import Base BaseQc S_Value S_Solve P_Deriv P_Fit P_FitLs S_Mapper.
Import ListNotations.
Local Open Scope list_scope.
Local Open Scope nat_scope.

Definition little (u : list Qc) (f : list Qc -> Qc) : Prop :=
  forall e, (0 < e)%Qc -> exists r, (0 < r)%Qc /\ forall w, near r u w -> (qabs (f w) <= e * distance u w)%Qc.
Definition big (u : list Qc) (f : list Qc -> Qc) : Prop :=
  exists C r, (0 < C)%Qc /\ (0 < r)%Qc /\ forall w, near r u w -> (qabs (f w) <= C * distance u w)%Qc.
Definition eventually (u : list Qc) (P : list Qc -> Prop) : Prop :=
  exists r, (0 < r)%Qc /\ forall w, near r u w -> P w.

Lemma pos_neq x : (0 < x)%Qc -> x <> 0%Qc.
Proof. intros P E. rewrite E in P. now apply Qclt_not_eq in P. Qed.
Lemma near_weaken r r' u w : (r <= r')%Qc -> near r u w -> near r' u w.
Proof.
  intros L H. induction H as [|x y u w H F IH]; constructor; auto.
  clear - L H. qlra.
Qed.
Lemma near_length r u w : near r u w -> length w = length u.
Proof. intros H. symmetry. exact (Forall2_len _ _ _ H). Qed.
Lemma eventually_and u P Q : eventually u P -> eventually u Q -> eventually u (fun w => P w /\ Q w).
Proof.
  intros (r1 & R1 & H1) (r2 & R2 & H2).
  destruct (Qclt_le_dec r1 r2) as [L|L].
  - exists r1. split; auto. intros w N. split; auto. apply H2. apply (near_weaken r1); auto. clear - L. qlra.
  - exists r2. split; auto. intros w N. split; auto. apply H1. apply (near_weaken r2); auto.
Qed.
Lemma eventually_imp u (P Q : list Qc -> Prop) : (forall w, length w = length u -> P w -> Q w) -> eventually u P -> eventually u Q.
Proof. intros I (r & R & H). exists r. split; auto. intros w N. apply I; auto. eapply near_length; eauto. Qed.
Lemma eventually_all u n (P : nat -> list Qc -> Prop) : (forall i, i < n -> eventually u (P i)) ->
  eventually u (fun w => forall i, i < n -> P i w).
Proof.
  induction n as [|n IH]; intros H.
  - exists 1%Qc. split; [reflexivity|]. intros; lia.
  - apply (eventually_imp u (fun w => (forall i, i < n -> P i w) /\ P n w)).
    + intros w _ [A B] i Hi. destruct (Nat.eq_dec i n) as [->|]; auto. apply A. lia.
    + apply eventually_and; auto.
Qed.
Lemma eventually_length u : eventually u (fun w => length w = length u).
Proof. exists 1%Qc. split; [reflexivity|]. intros w N. eapply near_length; eauto. Qed.
Lemma near_refl r u : (0 < r)%Qc -> near r u u.
Proof.
  intros R. induction u as [|x u IH]; constructor; auto.
  replace (x - x)%Qc with 0%Qc by ring. exact R.
Qed.
Lemma eventually_here u P : eventually u P -> P u.
Proof. intros (r & R & H). apply H. now apply near_refl. Qed.

Lemma distance_nonneg u w : (0 <= distance u w)%Qc.
Proof. unfold distance. apply qsum_nonneg. intros j _. apply qabs_nonneg. Qed.
Lemma distance_ge u w j : j < length u -> (qabs (nth j w 0 - nth j u 0) <= distance u w)%Qc.
Proof.
  intros Hj. unfold distance.
  set (f := fun j => qabs (nth j w 0%Qc - nth j u 0%Qc)).
  change (f j <= qsum (map f (seq 0 (length u))))%Qc.
  replace (f j) with (qsum (map (fun i => (if i =? j then 1 else 0) * f i)%Qc (seq 0 (length u)))) by (now apply delta_sum).
  apply P_Fit.qsum_le. intros i _. assert (0 <= f i)%Qc by apply qabs_nonneg.
  destruct (i =? j); clear - H; qlra.
Qed.
Lemma near_nth r u w j : near r u w -> j < length u -> (qabs (nth j w 0 - nth j u 0) < r)%Qc.
Proof.
  intros N. revert j. induction N as [|x y u w H F IH]; intros [|j] Hj; cbn in *; try lia; auto.
  apply IH. lia.
Qed.
Lemma distance_small r u w : (0 < r)%Qc -> near r u w -> (distance u w <= inj (length u) * r)%Qc.
Proof.
  intros R N. unfold distance. rewrite <- (seq_length (length u) 0) at 2. rewrite <- qsum_const.
  apply P_Fit.qsum_le. intros j Hj. apply in_seq in Hj.
  pose proof (near_nth r u w j N ltac:(lia)) as H. clear - H. qlra.
Qed.
Lemma distance_eventually u e : (0 < e)%Qc -> eventually u (fun w => (distance u w <= e)%Qc).
Proof.
  intros E. exists (e / (inj (length u) + 1))%Qc.
  assert (P : (0 < inj (length u) + 1)%Qc) by (pose proof (inj_nonneg (length u)) as I; clear - I; qlra).
  assert (R : (0 < e / (inj (length u) + 1))%Qc) by (apply Qc_mul_pos; [exact E|now apply Qc_inv_pos]).
  split; auto.
  intros w N. pose proof (distance_small _ _ _ R N) as D.
  set (r := (e / (inj (length u) + 1))%Qc) in *.
  assert (Q : (inj (length u) * r + r = e)%Qc).
  { unfold r. field. now apply pos_neq. }
  clear - R Q D. qlra.
Qed.

Lemma little_spec u f : little u f <-> forall e, (0 < e)%Qc -> eventually u (fun w => (qabs (f w) <= e * distance u w)%Qc).
Proof. reflexivity. Qed.
Lemma big_spec u f : big u f <-> exists C, (0 < C)%Qc /\ eventually u (fun w => (qabs (f w) <= C * distance u w)%Qc).
Proof.
  split.
  - intros (C & r & HC & R & H). exists C. split; auto. exists r. auto.
  - intros (C & HC & r & R & H). exists C, r. auto.
Qed.
Lemma little_ext u f g : eventually u (fun w => f w = g w) -> little u f -> little u g.
Proof.
  intros E H e He. specialize (H e He).
  apply (eventually_imp u (fun w => f w = g w /\ (qabs (f w) <= e * distance u w)%Qc)).
  - intros w _ [-> A]. exact A.
  - now apply eventually_and.
Qed.
Lemma big_ext u f g : eventually u (fun w => f w = g w) -> big u f -> big u g.
Proof.
  rewrite !big_spec. intros E (C & HC & H). exists C. split; auto.
  apply (eventually_imp u (fun w => f w = g w /\ (qabs (f w) <= C * distance u w)%Qc)).
  - intros w _ [-> A]. exact A.
  - now apply eventually_and.
Qed.
Lemma little_add u f g : little u f -> little u g -> little u (fun w => f w + g w)%Qc.
Proof.
  intros F G e He. assert (H2 : (0 < e * qc 1 2)%Qc) by (apply Qc_mul_pos; [exact He|reflexivity]).
  pose proof (eventually_and u _ _ (F _ H2) (G _ H2)) as E. revert E.
  apply eventually_imp. intros w _ [A B]. pose proof (qabs_add (f w) (g w)) as T.
  assert (Q : (e * qc 1 2 + e * qc 1 2 = e)%Qc) by (replace (qc 1 2) with (1 / (1 + 1))%Qc by (apply Qc_is_canon; reflexivity); field; discriminate).
  replace (e * distance u w)%Qc with ((e * qc 1 2) * distance u w + (e * qc 1 2) * distance u w)%Qc by (rewrite <- Q at 3; ring).
  clear - A B T. qlra.
Qed.
Lemma little_0 u : little u (fun _ => 0%Qc).
Proof.
  intros e He. exists 1%Qc. split; [reflexivity|]. intros w _. pose proof (distance_nonneg u w) as D.
  replace (qabs 0)%Qc with 0%Qc by reflexivity. apply Qc_mul_nonneg; auto. now apply Qclt_le_weak.
Qed.
Lemma little_scale u c f : little u f -> little u (fun w => c * f w)%Qc.
Proof.
  intros F e He.
  assert (P : (0 < qabs c + 1)%Qc) by (pose proof (qabs_nonneg c) as A; clear - A; qlra).
  assert (R : (0 < e / (qabs c + 1))%Qc) by (apply Qc_mul_pos; [exact He|now apply Qc_inv_pos]).
  generalize (F _ R). apply eventually_imp. intros w _ A. rewrite qabs_mul.
  set (q := (e / (qabs c + 1))%Qc) in *.
  assert (Q : (e = qabs c * q + q)%Qc).
  { unfold q. field. now apply pos_neq. }
  rewrite Q. pose proof (qabs_nonneg c) as C0. pose proof (distance_nonneg u w) as D.
  set (m := qabs c) in *. set (x := qabs (f w)) in *. set (y := distance u w) in *. clearbody m x y q.
  assert (B1 : (m * x <= m * (q * y))%Qc) by (clear - A C0; qnra).
  assert (B2 : (0 <= q * y)%Qc) by (apply Qc_mul_nonneg; auto; now apply Qclt_le_weak).
  replace ((m * q + q) * y)%Qc with (m * (q * y) + q * y)%Qc by ring. clear - B1 B2. qlra.
Qed.
Lemma little_sum {A} u (f : A -> list Qc -> Qc) l : (forall i, In i l -> little u (f i)) ->
  little u (fun w => qsum (map (fun i => f i w) l)).
Proof.
  induction l as [|a l IH]; intros H; cbn.
  - apply little_0.
  - apply little_add; [apply H; now left|]. apply IH. intros i Hi. apply H. now right.
Qed.
Lemma little_sub u f g : little u f -> little u g -> little u (fun w => f w - g w)%Qc.
Proof.
  intros F G. apply (little_ext u (fun w => f w + (- (1)) * g w)%Qc).
  - exists 1%Qc. split; [reflexivity|]. intros; ring.
  - apply little_add; auto. now apply little_scale.
Qed.
Lemma little_big u f : little u f -> big u f.
Proof. intros F. apply big_spec. exists 1%Qc. split; [reflexivity|]. now apply F. Qed.
Lemma big_add u f g : big u f -> big u g -> big u (fun w => f w + g w)%Qc.
Proof.
  rewrite !big_spec. intros (C & HC & F) (D & HD & G). exists (C + D)%Qc. split; [clear - HC HD; qlra|].
  pose proof (eventually_and _ _ _ F G) as E. revert E. apply eventually_imp. intros w _ [A B].
  pose proof (qabs_add (f w) (g w)) as T. set (d := distance u w) in *.
  replace ((C + D) * d)%Qc with (C * d + D * d)%Qc by ring. clear - A B T. qlra.
Qed.
Lemma big_scale u c f : big u f -> big u (fun w => c * f w)%Qc.
Proof.
  rewrite !big_spec. intros (C & HC & F). exists ((qabs c + 1) * C)%Qc.
  pose proof (qabs_nonneg c) as C0. split; [apply Qc_mul_pos; auto; clear - C0; qlra|].
  revert F. apply eventually_imp. intros w _ A. rewrite qabs_mul. pose proof (distance_nonneg u w) as D.
  set (m := qabs c) in *. set (x := qabs (f w)) in *. set (y := distance u w) in *. clearbody m x y.
  assert (B1 : (m * x <= m * (C * y))%Qc) by (clear - A C0; qnra).
  assert (B2 : (0 <= C * y)%Qc) by (apply Qc_mul_nonneg; auto; now apply Qclt_le_weak).
  replace ((m + 1) * C * y)%Qc with (m * (C * y) + C * y)%Qc by ring. clear - B1 B2. qlra.
Qed.
Lemma big_0 u : big u (fun _ => 0%Qc).
Proof. apply little_big, little_0. Qed.
Lemma big_sum {A} u (f : A -> list Qc -> Qc) l : (forall i, In i l -> big u (f i)) ->
  big u (fun w => qsum (map (fun i => f i w) l)).
Proof.
  induction l as [|a l IH]; intros H; cbn.
  - apply big_0.
  - apply big_add; [apply H; now left|]. apply IH. intros i Hi. apply H. now right.
Qed.
Lemma big_coord u j : j < length u -> big u (fun w => nth j w 0 - nth j u 0)%Qc.
Proof.
  intros Hj. apply big_spec. exists 1%Qc. split; [reflexivity|]. exists 1%Qc. split; [reflexivity|].
  intros w _. pose proof (distance_ge u w j Hj). clear - H. qlra.
Qed.
Lemma big_mul u f g : big u f -> big u g -> little u (fun w => f w * g w)%Qc.
Proof.
  rewrite !big_spec. intros (C & HC & F) (D & HD & G) e He.
  assert (P : (0 < C * D)%Qc) by (now apply Qc_mul_pos).
  assert (R : (0 < e / (C * D))%Qc) by (apply Qc_mul_pos; [exact He|now apply Qc_inv_pos]).
  pose proof (eventually_and _ _ _ (distance_eventually u _ R) (eventually_and _ _ _ F G)) as E.
  revert E. apply eventually_imp. intros w _ (S & A & B). rewrite qabs_mul.
  pose proof (qabs_nonneg (f w)) as X0. pose proof (qabs_nonneg (g w)) as Y0. pose proof (distance_nonneg u w) as D0.
  set (x := qabs (f w)) in *. set (y := qabs (g w)) in *. set (d := distance u w) in *.
  assert (Q : (C * D * (e / (C * D)) = e)%Qc).
  { field. split; now apply pos_neq. }
  set (q := (e / (C * D))%Qc) in *. clearbody x y d q.
  assert (B1 : (x * y <= (C * d) * y)%Qc) by (clear - A Y0; qnra).
  assert (B2 : ((C * d) * y <= (C * d) * (D * d))%Qc).
  { assert (0 <= C * d)%Qc by (apply Qc_mul_nonneg; auto; now apply Qclt_le_weak). clear - H B. qnra. }
  assert (B3 : ((C * D * d) * d <= (C * D * d) * q)%Qc).
  { assert (0 <= C * D * d)%Qc by (apply Qc_mul_nonneg; auto; now apply Qclt_le_weak). clear - H S. qnra. }
  replace (e * d)%Qc with ((C * D * d) * q)%Qc by (rewrite <- Q; ring).
  replace ((C * d) * (D * d))%Qc with ((C * D * d) * d)%Qc in B2 by ring.
  clear - B1 B2 B3. qlra.
Qed.

(** Total derivatives. *)
Definition linear (u : list Qc) (D : nat -> Qc) (w : list Qc) : Qc :=
  qsum (map (fun j => D j * (nth j w 0 - nth j u 0))%Qc (seq 0 (length u))).
Lemma total_little f u D : total f u D <-> little u (fun w => f w - f u - linear u D w)%Qc.
Proof. reflexivity. Qed.
Lemma linear_big u D : big u (linear u D).
Proof.
  unfold linear. apply big_sum with (f := fun j w => (D j * (nth j w 0 - nth j u 0))%Qc).
  intros j Hj. apply in_seq in Hj. apply big_scale. apply big_coord. lia.
Qed.
Lemma total_big f u D : total f u D -> big u (fun w => f w - f u)%Qc.
Proof.
  intros H. apply (big_ext u (fun w => (f w - f u - linear u D w) + linear u D w)%Qc).
  - exists 1%Qc. split; [reflexivity|]. intros; ring.
  - apply big_add; [now apply little_big|apply linear_big].
Qed.
Lemma linear_ext u D D' w : (forall j, j < length u -> D j = D' j) -> linear u D w = linear u D' w.
Proof. intros H. unfold linear. apply qsum_ext. intros j Hj. apply in_seq in Hj. rewrite H by lia. reflexivity. Qed.
Lemma linear_add u D E w : linear u (fun j => D j + E j)%Qc w = (linear u D w + linear u E w)%Qc.
Proof. unfold linear. rewrite <- qsum_map_add. apply qsum_ext. intros; ring. Qed.
Lemma linear_scale u c D w : linear u (fun j => c * D j)%Qc w = (c * linear u D w)%Qc.
Proof. unfold linear. rewrite <- qsum_map_mul_l. apply qsum_ext. intros; ring. Qed.
Lemma linear_0 u w : linear u (fun _ => 0%Qc) w = 0%Qc.
Proof. unfold linear. apply qsum_zero. intros; ring. Qed.
Lemma linear_sum {A} u (D : A -> nat -> Qc) l w :
  linear u (fun j => qsum (map (fun a => D a j) l)) w = qsum (map (fun a => linear u (D a) w) l).
Proof.
  induction l as [|a l IH]; cbn; [apply linear_0|]. rewrite <- IH. rewrite <- linear_add. reflexivity.
Qed.
Lemma always u (P : list Qc -> Prop) : (forall w, length w = length u -> P w) -> eventually u P.
Proof. intros H. exists 1%Qc. split; [reflexivity|]. intros w N. apply H. eapply near_length; eauto. Qed.
Lemma total_ext f g u D E : eventually u (fun w => f w = g w) -> (forall j, j < length u -> D j = E j) ->
  total f u D -> total g u E.
Proof.
  intros H L T. apply (little_ext u (fun w => f w - f u - linear u D w)%Qc); auto.
  pose proof (eventually_here _ _ H) as H0. cbv beta in H0.
  revert H. apply eventually_imp. intros w _ ->. rewrite H0. f_equal. f_equal. now apply linear_ext.
Qed.
Lemma total_add f g u D E : total f u D -> total g u E -> total (fun w => f w + g w)%Qc u (fun j => D j + E j)%Qc.
Proof.
  intros F G. apply (little_ext u (fun w => (f w - f u - linear u D w) + (g w - g u - linear u E w))%Qc).
  - apply always. intros w _. change (qsum _) with (linear u (fun j => D j + E j)%Qc w). rewrite linear_add. ring.
  - now apply little_add.
Qed.
Lemma total_scale c f u D : total f u D -> total (fun w => c * f w)%Qc u (fun j => c * D j)%Qc.
Proof.
  intros F. apply (little_ext u (fun w => c * (f w - f u - linear u D w))%Qc).
  - apply always. intros w _. change (qsum _) with (linear u (fun j => c * D j)%Qc w). rewrite linear_scale. ring.
  - now apply little_scale.
Qed.
Lemma total_const c u : total (fun _ => c) u (fun _ => 0%Qc).
Proof.
  apply (little_ext u (fun _ => 0%Qc)); [|apply little_0].
  apply always. intros w _. change (qsum _) with (linear u (fun _ => 0%Qc) w). rewrite linear_0. ring.
Qed.
Lemma total_sum {A} (f : A -> list Qc -> Qc) u (D : A -> nat -> Qc) l : (forall a, In a l -> total (f a) u (D a)) ->
  total (fun w => qsum (map (fun a => f a w) l)) u (fun j => qsum (map (fun a => D a j) l)).
Proof.
  induction l as [|a l IH]; intros H; cbn.
  - apply total_const.
  - apply total_add with (D := D a); [apply H; now left|]. apply IH. intros b Hb. apply H. now right.
Qed.
Lemma total_mul f g u D E : total f u D -> total g u E ->
  total (fun w => f w * g w)%Qc u (fun j => D j * g u + f u * E j)%Qc.
Proof.
  intros F G.
  apply (little_ext u (fun w => (g u * (f w - f u - linear u D w) + f u * (g w - g u - linear u E w)) + (f w - f u) * (g w - g u))%Qc).
  - apply always. intros w _. change (qsum _) with (linear u (fun j => D j * g u + f u * E j)%Qc w).
    rewrite linear_add. rewrite (linear_scale u (f u) E).
    rewrite (linear_ext u (fun j => D j * g u)%Qc (fun j => g u * D j)%Qc) by (intros; ring).
    rewrite linear_scale. ring.
  - apply little_add; [apply little_add; now apply little_scale|].
    apply big_mul; eapply total_big; eauto.
Qed.

Lemma near_intro r u w : length w = length u -> (forall j, j < length u -> (qabs (nth j w 0 - nth j u 0) < r)%Qc) -> near r u w.
Proof.
  revert w. induction u as [|x u IH]; intros [|y w] L H; cbn in *; try lia; constructor.
  - apply (H 0). lia.
  - apply IH; [lia|]. intros j Hj. apply (H (S j)). lia.
Qed.
Lemma set_nth_near r u j t : j < length u -> (0 < r)%Qc -> (qabs t < r)%Qc -> near r u (set_nth u j (nth j u 0 + t)%Qc).
Proof.
  intros Hj R T. apply near_intro; [apply set_nth_length|]. intros k Hk. rewrite set_nth_nth by auto.
  destruct (Nat.eqb_spec k j) as [->|N].
  - replace (nth j u 0 + t - nth j u 0)%Qc with t by ring. exact T.
  - replace (nth k u 0 - nth k u 0)%Qc with 0%Qc by ring. exact R.
Qed.
Lemma linear_little u D j : little u (linear u D) -> j < length u -> D j = 0%Qc.
Proof.
  intros H Hj. destruct (Qc_eq_dec (D j) 0) as [E|N]; auto. exfalso.
  pose proof (qabs_gt_0 _ N) as P.
  assert (E2 : (0 < qabs (D j) * qc 1 2)%Qc) by (apply Qc_mul_pos; [exact P|reflexivity]).
  destruct (H _ E2) as (r & R & B).
  set (t := (r * qc 1 2)%Qc).
  assert (T : (0 < t)%Qc) by (apply Qc_mul_pos; [exact R|reflexivity]).
  assert (T2 : (t < r)%Qc) by (unfold t; clear - R; replace (qc 1 2) with (1 - qc 1 2)%Qc by (apply Qc_is_canon; reflexivity);
     assert (0 < r * qc 1 2)%Qc by (apply Qc_mul_pos; [exact R|reflexivity]); replace (r * (1 - qc 1 2))%Qc with (r - r * qc 1 2)%Qc by ring; qlra).
  set (w := set_nth u j (nth j u 0 + t)%Qc).
  assert (Nw : near r u w) by (apply set_nth_near; auto; rewrite qabs_pos_eq; auto; now apply Qclt_le_weak).
  specialize (B _ Nw).
  assert (W : forall k, k < length u -> (nth k w 0 - nth k u 0 = (if k =? j then 1 else 0) * t)%Qc).
  { intros k Hk. unfold w. rewrite set_nth_nth by auto. destruct (Nat.eqb_spec k j) as [->|]; ring. }
  assert (L : linear u D w = (D j * t)%Qc).
  { unfold linear. rewrite <- (delta_sum (fun k => D k * t)%Qc (length u) j Hj). apply qsum_ext.
    intros k Hk. apply in_seq in Hk. rewrite W by lia. ring. }
  assert (S : distance u w = t).
  { unfold distance. transitivity (qsum (map (fun k => (if k =? j then 1 else 0) * t)%Qc (seq 0 (length u)))).
    - apply qsum_ext. intros k Hk. apply in_seq in Hk. rewrite W by lia. destruct (k =? j).
      + replace (1 * t)%Qc with t by ring. apply qabs_pos_eq. now apply Qclt_le_weak.
      + replace (0 * t)%Qc with 0%Qc by ring. reflexivity.
    - apply (delta_sum (fun _ => t) _ _ Hj). }
  rewrite L, S, qabs_mul, (qabs_pos_eq t) in B by (now apply Qclt_le_weak).
  assert (B2 : (0 < (qabs (D j) * qc 1 2) * t)%Qc) by (now apply Qc_mul_pos).
  replace (qabs (D j) * t)%Qc with (qabs (D j) * qc 1 2 * t + qabs (D j) * qc 1 2 * t)%Qc in B.
  - clear - B B2. qlra.
  - replace (qabs (D j) * t)%Qc with (qabs (D j) * (qc 1 2 + qc 1 2) * t)%Qc by (replace (qc 1 2 + qc 1 2)%Qc with 1%Qc by (apply Qc_is_canon; reflexivity); ring). ring.
Qed.

Lemma qabs_sum {A} (f : A -> Qc) l : (qabs (qsum (map f l)) <= qsum (map (fun a => qabs (f a)) l))%Qc.
Proof.
  induction l as [|a l IH]; cbn.
  - apply Qcle_refl.
  - pose proof (qabs_add (f a) (qsum (map f l))) as T. clear - T IH. qlra.
Qed.
Definition norm (n : nat) (K : nat -> nat -> Qc) : Qc :=
  qsum (map (fun i => qsum (map (fun j => qabs (K i j)) (seq 0 n))) (seq 0 n)).
Lemma norm_nonneg n K : (0 <= norm n K)%Qc.
Proof. unfold norm. apply qsum_nonneg. intros. apply qsum_nonneg. intros. apply qabs_nonneg. Qed.
Lemma matrix_bound n K z y Z : (forall j, j < n -> (qabs (z j) <= Z)%Qc) ->
  (forall i, i < n -> y i = qsum (map (fun j => K i j * z j)%Qc (seq 0 n))) ->
  (qsum (map (fun i => qabs (y i)) (seq 0 n)) <= norm n K * Z)%Qc.
Proof.
  intros Hz Hy. unfold norm. rewrite <- qsum_map_mul_r. apply qsum_le. intros i Hi. apply in_seq in Hi.
  rewrite Hy by lia. rewrite <- qsum_map_mul_r.
  eapply Qcle_trans; [apply qabs_sum|]. apply qsum_le. intros j Hj. apply in_seq in Hj.
  rewrite qabs_mul. specialize (Hz j ltac:(lia)). pose proof (qabs_nonneg (K i j)) as P. clear - Hz P. qnra.
Qed.
Lemma sum_ge {A} (f : A -> Qc) l a : (forall x, In x l -> (0 <= f x)%Qc) -> In a l -> (f a <= qsum (map f l))%Qc.
Proof.
  induction l as [|b l IH]; intros P I; cbn; [easy|].
  assert (P' : forall x, In x l -> (0 <= f x)%Qc) by (intros; apply P; now right).
  destruct I as [->|I].
  - pose proof (qsum_nonneg f l P') as S. clear - S. qlra.
  - specialize (IH P' I). pose proof (P b (or_introl eq_refl)) as S. clear - S IH. qlra.
Qed.
Lemma big_abs u f : big u f -> big u (fun w => qabs (f w)).
Proof.
  rewrite !big_spec. intros (C & HC & H). exists C. split; auto. revert H. apply eventually_imp. intros w _ A.
  rewrite (qabs_pos_eq (qabs (f w))) by apply qabs_nonneg. exact A.
Qed.
Lemma big_small u f e : (0 < e)%Qc -> big u f -> eventually u (fun w => (qabs (f w) <= e)%Qc).
Proof.
  rewrite big_spec. intros He (C & HC & H).
  assert (R : (0 < e / C)%Qc) by (apply Qc_mul_pos; [exact He|now apply Qc_inv_pos]).
  pose proof (eventually_and _ _ _ (distance_eventually u _ R) H) as E. revert E. apply eventually_imp. intros w _ [A B].
  assert (Q : (C * (e / C) = e)%Qc) by (field; now apply pos_neq).
  set (d := distance u w) in *. set (q := (e / C)%Qc) in *. clearbody d q.
  assert (C * d <= C * q)%Qc by (clear - A HC; qnra). rewrite Q in H0. clear - B H0. qlra.
Qed.
Lemma big_dominated u f g : (forall w, length w = length u -> (qabs (f w) <= qabs (g w))%Qc) -> big u g -> big u f.
Proof.
  rewrite !big_spec. intros D (C & HC & H). exists C. split; auto. revert H. apply eventually_imp.
  intros w L A. specialize (D w L). clear - D A. qlra.
Qed.
(** x = a + b with b at most half of x. *)
Lemma half_bound M e d x : (0 <= M)%Qc -> e = (1 / ((1 + 1) * (M + 1)))%Qc -> (0 <= d)%Qc -> (0 <= x)%Qc ->
  (x <= M * (d + e * x))%Qc -> (x <= (M + M) * d)%Qc.
Proof.
  intros HM He Hd Hx H.
  assert (P : (0 < M + 1)%Qc) by (clear - HM; qlra).
  assert (E : ((1 + 1) * (M * e) + (1 + 1) * e = 1)%Qc).
  { rewrite He. field. split; [|discriminate]. now apply pos_neq. }
  assert (Pe : (0 < e)%Qc).
  { rewrite He. unfold Qcdiv. rewrite Qcmult_1_l. apply Qc_inv_pos. apply Qc_mul_pos; [reflexivity|exact P]. }
  assert (H1 : (0 <= e * x)%Qc) by (apply Qc_mul_nonneg; auto; now apply Qclt_le_weak).
  assert (H2 : ((1 + 1) * (M * (e * x)) + (1 + 1) * (e * x) = x)%Qc).
  { transitivity (((1 + 1) * (M * e) + (1 + 1) * e) * x)%Qc; [ring|]. rewrite E. ring. }
  replace (M * (d + e * x))%Qc with (M * d + M * (e * x))%Qc in H by ring.
  replace ((M + M) * d)%Qc with (M * d + M * d)%Qc by ring.
  set (a := (M * d)%Qc) in *. set (b := (M * (e * x))%Qc) in *. set (c := (e * x)%Qc) in *. clearbody a b c.
  clear - H H1 H2. qlra.
Qed.

Section Geometry.
Variable u : list Qc.
Let n := length u.
Variable X : nat -> list Qc -> Qc.
Variables J K : nat -> nat -> Qc.
Hypothesis HX : forall i, i < n -> total (X i) u (J i).
Hypothesis JK : forall i j, i < n -> j < n -> qsum (map (fun k => J i k * K k j)%Qc (seq 0 n)) = (if i =? j then 1 else 0)%Qc.
Hypothesis KJ : forall i j, i < n -> j < n -> qsum (map (fun k => K i k * J k j)%Qc (seq 0 n)) = (if i =? j then 1 else 0)%Qc.
Let rho i w := (X i w - X i u - linear u (J i) w)%Qc.
Let xdist w := qsum (map (fun i => qabs (X i w - X i u)%Qc) (seq 0 n)).

Lemma rho_little i : i < n -> little u (rho i).
Proof. intros Hi. exact (HX i Hi). Qed.
Lemma xdist_nonneg w : (0 <= xdist w)%Qc.
Proof. apply qsum_nonneg. intros. apply qabs_nonneg. Qed.
Lemma xdist_ge i w : i < n -> (qabs (X i w - X i u) <= xdist w)%Qc.
Proof.
  intros Hi. apply (sum_ge (fun i => qabs (X i w - X i u)%Qc)).
  - intros. apply qabs_nonneg.
  - apply in_seq. lia.
Qed.
Lemma xdist_big : big u xdist.
Proof.
  apply big_sum with (f := fun i w => qabs (X i w - X i u)%Qc). intros i Hi. apply in_seq in Hi.
  apply big_abs. apply (total_big _ _ (J i)). apply HX. lia.
Qed.
Lemma coordinate_back j w : j < n ->
  (nth j w 0 - nth j u 0)%Qc = qsum (map (fun i => K j i * (X i w - X i u - rho i w))%Qc (seq 0 n)).
Proof.
  intros Hj.
  transitivity (qsum (map (fun i => K j i * linear u (J i) w)%Qc (seq 0 n))).
  - symmetry. unfold linear.
    transitivity (qsum (map (fun i => qsum (map (fun k => K j i * J i k * (nth k w 0 - nth k u 0))%Qc (seq 0 n))) (seq 0 n))).
    { apply qsum_ext. intros i _. rewrite <- qsum_map_mul_l. apply qsum_ext. intros; ring. }
    rewrite qsum_swap.
    transitivity (qsum (map (fun k => (if k =? j then 1 else 0) * (nth k w 0 - nth k u 0))%Qc (seq 0 n))).
    { apply qsum_ext. intros k Hk. apply in_seq in Hk. rewrite qsum_map_mul_r. rewrite KJ by lia. now rewrite Nat.eqb_sym. }
    apply (delta_sum (fun k => nth k w 0 - nth k u 0)%Qc). exact Hj.
  - apply qsum_ext. intros i _. unfold rho. ring.
Qed.
Lemma distance_bound : exists C, (0 < C)%Qc /\ eventually u (fun w => (distance u w <= C * xdist w)%Qc).
Proof.
  set (M := norm n K). pose proof (norm_nonneg n K) as M0. fold M in M0.
  exists (M + M + 1)%Qc. split; [clear - M0; qlra|].
  set (e := (1 / ((1 + 1) * (M + 1)))%Qc).
  assert (Pe : (0 < e)%Qc).
  { unfold e, Qcdiv. rewrite Qcmult_1_l. apply Qc_inv_pos. apply Qc_mul_pos; [reflexivity|clear - M0; qlra]. }
  pose proof (eventually_all u n _ (fun i Hi => rho_little i Hi e Pe)) as E.
  revert E. apply eventually_imp. intros w _ B.
  pose proof (distance_nonneg u w) as D0. pose proof (xdist_nonneg w) as X0.
  assert (H : (distance u w <= (M + M) * xdist w)%Qc).
  { apply (half_bound M e); auto.
    unfold distance. fold n. apply (matrix_bound n K (fun i => X i w - X i u - rho i w)%Qc (fun j => nth j w 0 - nth j u 0)%Qc).
    - intros i Hi. specialize (B i Hi). pose proof (xdist_ge i w Hi) as G.
      pose proof (qabs_add (X i w - X i u) (- rho i w)) as T. rewrite qabs_opp in T.
      replace (X i w - X i u - rho i w)%Qc with (X i w - X i u + - rho i w)%Qc by ring.
      eapply Qcle_trans; [exact T|]. apply Qcplus_le_compat; [exact G|exact B].
    - intros j Hj. now apply coordinate_back. }
  clear - H X0. replace ((M + M + 1) * xdist w)%Qc with ((M + M) * xdist w + xdist w)%Qc by ring. qlra.
Qed.

Lemma gradient_rest f G w : (f w - f u - qsum (map (fun i => G i * (X i w - X i u))%Qc (seq 0 n)) =
  (f w - f u - linear u (fun j => qsum (map (fun i => G i * J i j)%Qc (seq 0 n))) w) - qsum (map (fun i => G i * rho i w)%Qc (seq 0 n)))%Qc.
Proof.
  assert (L : linear u (fun j => qsum (map (fun i => G i * J i j)%Qc (seq 0 n))) w = qsum (map (fun i => G i * linear u (J i) w)%Qc (seq 0 n))).
  { rewrite (linear_sum u (fun i j => G i * J i j)%Qc). apply qsum_ext. intros i _. apply linear_scale. }
  rewrite L.
  assert (S : qsum (map (fun i => G i * (X i w - X i u))%Qc (seq 0 n)) =
    (qsum (map (fun i => G i * linear u (J i) w)%Qc (seq 0 n)) + qsum (map (fun i => G i * rho i w)%Qc (seq 0 n)))%Qc).
  { rewrite <- qsum_map_add. apply qsum_ext. intros i _. unfold rho. ring. }
  rewrite S. ring.
Qed.
Lemma rho_sum_little G : little u (fun w => qsum (map (fun i => G i * rho i w)%Qc (seq 0 n))).
Proof.
  apply little_sum with (f := fun i w => (G i * rho i w)%Qc). intros i Hi. apply in_seq in Hi.
  apply little_scale. apply rho_little. lia.
Qed.

Lemma gradient_of_total f D : total f u D ->
  gradient_in X f u (fun i => qsum (map (fun j => D j * K j i)%Qc (seq 0 n))).
Proof.
  intros F e He. set (G := fun i => qsum (map (fun j => D j * K j i)%Qc (seq 0 n))).
  assert (GJ : forall j, j < n -> qsum (map (fun i => G i * J i j)%Qc (seq 0 n)) = D j).
  { intros j Hj. unfold G.
    transitivity (qsum (map (fun i => qsum (map (fun k => D k * (K k i * J i j))%Qc (seq 0 n))) (seq 0 n))).
    { apply qsum_ext. intros i _. rewrite <- qsum_map_mul_r. apply qsum_ext. intros; ring. }
    rewrite qsum_swap. transitivity (qsum (map (fun k => (if k =? j then 1 else 0) * D k)%Qc (seq 0 n))).
    { apply qsum_ext. intros k Hk. apply in_seq in Hk. rewrite qsum_map_mul_l. rewrite KJ by lia. ring. }
    now apply delta_sum. }
  destruct distance_bound as (C & HC & B).
  assert (R : (0 < e / C)%Qc) by (apply Qc_mul_pos; [exact He|now apply Qc_inv_pos]).
  assert (Lt : little u (fun w => (f w - f u - qsum (map (fun i => G i * (X i w - X i u)) (seq 0 n)))%Qc)).
  { apply (little_ext u (fun w => (f w - f u - linear u D w) - qsum (map (fun i => G i * rho i w) (seq 0 n)))%Qc).
    - apply always. intros w _. rewrite gradient_rest. rewrite (linear_ext u D (fun j => qsum (map (fun i => G i * J i j)%Qc (seq 0 n)))) by (intros j Hj; symmetry; now apply GJ). reflexivity.
    - apply little_sub; [exact F|apply rho_sum_little]. }
  pose proof (eventually_and _ _ _ (Lt _ R) B) as E. revert E. apply eventually_imp. intros w _ [A1 A2].
  fold n. fold (xdist w). fold G.
  assert (Q : (e / C * C = e)%Qc) by (field; now apply pos_neq).
  set (d := distance u w) in *. set (x := xdist w) in *. set (q := (e / C)%Qc) in *. set (l := qabs _) in *. clearbody d x q l.
  assert (q * d <= q * (C * x))%Qc by (clear - A2 R; qnra).
  replace (e * x)%Qc with (q * (C * x))%Qc by (rewrite <- Q; ring). clear - A1 H. qlra.
Qed.

Lemma gradient_little f G : gradient_in X f u G -> little u (fun w => (f w - f u - qsum (map (fun i => G i * (X i w - X i u)) (seq 0 n)))%Qc).
Proof.
  intros H e He. destruct (proj1 (big_spec u xdist) xdist_big) as (C & HC & B).
  assert (R : (0 < e / C)%Qc) by (apply Qc_mul_pos; [exact He|now apply Qc_inv_pos]).
  pose proof (eventually_and _ _ _ (H _ R) B) as E. revert E. apply eventually_imp. intros w _ [A1 A2].
  fold n in A1. fold (xdist w) in A1.
  pose proof (xdist_nonneg w) as X0. rewrite qabs_pos_eq in A2 by auto.
  assert (Q : (e / C * C = e)%Qc) by (field; now apply pos_neq).
  set (d := distance u w) in *. set (x := xdist w) in *. set (q := (e / C)%Qc) in *. set (l := qabs _) in *. clearbody d x q l.
  assert (q * x <= q * (C * d))%Qc by (clear - A2 R; qnra).
  replace (e * d)%Qc with (q * (C * d))%Qc by (rewrite <- Q; ring). clear - A1 H0. qlra.
Qed.
Lemma gradient_unique f G G' : gradient_in X f u G -> gradient_in X f u G' -> forall i, i < n -> G i = G' i.
Proof.
  intros H H' i Hi. apply gradient_little in H, H'.
  set (c := fun i => (G i - G' i)%Qc).
  assert (L : little u (linear u (fun j => qsum (map (fun i => c i * J i j)%Qc (seq 0 n))))).
  { pose proof (little_sub u _ _ H' H) as S. pose proof (little_sub u _ _ S (rho_sum_little c)) as T.
    revert T. apply little_ext. apply always. intros w _.
    pose proof (gradient_rest (fun _ => 0%Qc) c w) as R. cbv beta in R.
    assert (Z : qsum (map (fun i => c i * (X i w - X i u))%Qc (seq 0 n)) =
      (qsum (map (fun i => G i * (X i w - X i u))%Qc (seq 0 n)) - qsum (map (fun i => G' i * (X i w - X i u))%Qc (seq 0 n)))%Qc).
    { rewrite <- qsum_map_sub. apply qsum_ext. intros; unfold c; ring. }
    rewrite Z in R.
    set (a := qsum (map (fun i => G i * (X i w - X i u))%Qc (seq 0 n))) in *.
    set (b := qsum (map (fun i => G' i * (X i w - X i u))%Qc (seq 0 n))) in *.
    set (x := linear u _ w) in *. set (y := qsum (map (fun i => c i * rho i w)%Qc (seq 0 n))) in *. clearbody a b x y.
    transitivity ((a - b) - y)%Qc; [ring|].
    transitivity (- (0 - 0 - (a - b)) - y)%Qc; [ring|]. rewrite R. ring. }
  assert (Z : forall j, j < n -> qsum (map (fun i => c i * J i j)%Qc (seq 0 n)) = 0%Qc).
  { intros j Hj. exact (linear_little u _ j L Hj). }
  assert (Ci : c i = 0%Qc).
  { transitivity (qsum (map (fun m => (if m =? i then 1 else 0) * c m)%Qc (seq 0 n))); [symmetry; now apply delta_sum|].
    transitivity (qsum (map (fun m => qsum (map (fun j => c m * J m j * K j i)%Qc (seq 0 n))) (seq 0 n))).
    { apply qsum_ext. intros m Hm. apply in_seq in Hm. rewrite <- (JK m i) by lia. rewrite <- qsum_map_mul_r. apply qsum_ext. intros; ring. }
    rewrite qsum_swap. apply qsum_zero. intros j Hj. apply in_seq in Hj. rewrite qsum_map_mul_r. rewrite Z by lia. ring. }
  unfold c in Ci. replace (G i) with (G i - G' i + G' i)%Qc by ring. rewrite Ci. ring.
Qed.
End Geometry.

(** Solutions of g J = P: derivatives of g from those of J and P. *)
Section Solved.
Variable u : list Qc.
Let n := length u.
Variables (g P : nat -> list Qc -> Qc) (JJ : nat -> nat -> list Qc -> Qc).
Variables (HP : nat -> nat -> Qc) (HJ : nat -> nat -> nat -> Qc) (K : nat -> nat -> Qc).
Hypothesis solves : eventually u (fun w => forall j, j < n -> qsum (map (fun i => g i w * JJ i j w)%Qc (seq 0 n)) = P j w).
Hypothesis tP : forall j, j < n -> total (P j) u (HP j).
Hypothesis tJ : forall i j, i < n -> j < n -> total (JJ i j) u (HJ i j).
Hypothesis JK : forall i j, i < n -> j < n -> qsum (map (fun k => JJ i k u * K k j)%Qc (seq 0 n)) = (if i =? j then 1 else 0)%Qc.

Let gam i w := (g i w - g i u)%Qc.
Let B j w := ((P j w - P j u) - qsum (map (fun i => g i u * (JJ i j w - JJ i j u)) (seq 0 n)))%Qc.
Let N j w := qsum (map (fun i => gam i w * (JJ i j w - JJ i j u))%Qc (seq 0 n)).

Lemma moved : eventually u (fun w => forall i, i < n -> gam i w = qsum (map (fun j => K j i * (B j w - N j w))%Qc (seq 0 n))).
Proof.
  pose proof (eventually_here _ _ solves) as S0. cbv beta in S0.
  revert solves. apply eventually_imp. intros w _ S i Hi.
  assert (E : forall j, j < n -> (B j w - N j w)%Qc = qsum (map (fun m => gam m w * JJ m j u)%Qc (seq 0 n))).
  { intros j Hj. unfold B, N. rewrite <- (S j Hj), <- (S0 j Hj). rewrite <- !qsum_map_sub.
    apply qsum_ext. intros m _. unfold gam. ring. }
  symmetry.
  transitivity (qsum (map (fun j => qsum (map (fun m => gam m w * (JJ m j u * K j i))%Qc (seq 0 n))) (seq 0 n))).
  { apply qsum_ext. intros j Hj. apply in_seq in Hj. rewrite E by lia. rewrite <- qsum_map_mul_l. apply qsum_ext. intros; ring. }
  rewrite qsum_swap.
  transitivity (qsum (map (fun m => (if m =? i then 1 else 0) * gam m w)%Qc (seq 0 n))).
  { apply qsum_ext. intros m Hm. apply in_seq in Hm. rewrite qsum_map_mul_l. rewrite JK by lia. ring. }
  now apply delta_sum.
Qed.
Lemma B_total j : j < n -> total (B j) u (fun k => HP j k - qsum (map (fun i => g i u * HJ i j k) (seq 0 n)))%Qc.
Proof.
  intros Hj.
  apply (total_ext (fun w => P j w + (- P j u + qsum (map (fun i => (- g i u) * (JJ i j w + - JJ i j u)) (seq 0 n))))%Qc _ u
     (fun k => HP j k + (0 + qsum (map (fun i => (- g i u) * (HJ i j k + 0)) (seq 0 n))))%Qc).
  - apply always. intros w _. unfold B.
    replace (qsum (map (fun i => - g i u * (JJ i j w + - JJ i j u))%Qc (seq 0 n))) with (- (1) * qsum (map (fun i => g i u * (JJ i j w - JJ i j u))%Qc (seq 0 n)))%Qc.
    + ring.
    + rewrite <- qsum_map_mul_l. apply qsum_ext. intros; ring.
  - intros k _.
    replace (qsum (map (fun i => - g i u * (HJ i j k + 0))%Qc (seq 0 n))) with (- (1) * qsum (map (fun i => g i u * HJ i j k)%Qc (seq 0 n)))%Qc.
    + ring.
    + rewrite <- qsum_map_mul_l. apply qsum_ext. intros; ring.
  - apply total_add; [now apply tP|]. apply total_add; [apply total_const|].
    apply total_sum with (f := fun i w => (- g i u * (JJ i j w + - JJ i j u))%Qc) (D := fun i k => (- g i u * (HJ i j k + 0))%Qc).
    intros i Hi. apply in_seq in Hi. apply total_scale. apply total_add; [apply tJ; lia|apply total_const].
Qed.
Lemma B_here j : B j u = 0%Qc.
Proof. unfold B. rewrite qsum_zero; [ring|]. intros; ring. Qed.
Lemma B_big j : j < n -> big u (B j).
Proof.
  intros Hj. pose proof (total_big _ _ _ (B_total j Hj)) as T. revert T. apply big_ext. apply always. intros w _.
  rewrite B_here. ring.
Qed.
Lemma JJ_big i j : i < n -> j < n -> big u (fun w => JJ i j w - JJ i j u)%Qc.
Proof. intros Hi Hj. apply (total_big _ _ (HJ i j)). now apply tJ. Qed.

Lemma gam_big i : i < n -> big u (gam i).
Proof.
  intros Hi.
  set (M := norm n (fun i j => K j i)). pose proof (norm_nonneg n (fun i j => K j i)) as M0. fold M in M0.
  set (e := (1 / ((1 + 1) * (M + 1)))%Qc).
  assert (Pe : (0 < e)%Qc).
  { unfold e, Qcdiv. rewrite Qcmult_1_l. apply Qc_inv_pos. apply Qc_mul_pos; [reflexivity|clear - M0; qlra]. }
  set (b := fun w => qsum (map (fun j => qabs (B j w)) (seq 0 n))).
  assert (Bb : big u b).
  { apply big_sum with (f := fun j w => qabs (B j w)). intros j Hj. apply in_seq in Hj. apply big_abs, B_big. lia. }
  assert (BM : big u (fun w => (M + M) * b w)%Qc) by (now apply big_scale).
  assert (Sm : eventually u (fun w => forall i, i < n -> forall j, j < n -> (qabs (JJ i j w - JJ i j u) <= e)%Qc)).
  { apply eventually_all. intros i' Hi'. apply eventually_all. intros j' Hj'. apply big_small; auto. now apply JJ_big. }
  apply big_spec. apply big_spec in BM. destruct BM as (C & HC & BM). exists C. split; auto.
  pose proof (eventually_and _ _ _ BM (eventually_and _ _ _ Sm moved)) as E. revert E. apply eventually_imp.
  intros w _ (A1 & A2 & A3).
  set (x := qsum (map (fun i => qabs (gam i w)) (seq 0 n))).
  assert (X0 : (0 <= x)%Qc) by (apply qsum_nonneg; intros; apply qabs_nonneg).
  assert (B0 : (0 <= b w)%Qc) by (apply qsum_nonneg; intros; apply qabs_nonneg).
  assert (Hx : (x <= (M + M) * b w)%Qc).
  { apply (half_bound M e); auto.
    apply (matrix_bound n (fun i j => K j i) (fun j => B j w - N j w)%Qc (fun i => gam i w)); auto.
    intros j Hj. pose proof (qabs_add (B j w) (- N j w)) as T. rewrite qabs_opp in T.
    replace (B j w - N j w)%Qc with (B j w + - N j w)%Qc by ring.
    assert (T1 : (qabs (B j w) <= b w)%Qc).
    { apply (sum_ge (fun j => qabs (B j w))); [intros; apply qabs_nonneg|apply in_seq; lia]. }
    assert (T2 : (qabs (N j w) <= e * x)%Qc).
    { unfold N. eapply Qcle_trans; [apply qabs_sum|]. unfold x. rewrite <- qsum_map_mul_l. apply qsum_le.
      intros m Hm. apply in_seq in Hm. rewrite qabs_mul. specialize (A2 m ltac:(lia) j Hj). pose proof (qabs_nonneg (gam m w)) as G.
      clear - A2 G. qnra. }
    clear - T T1 T2. qlra. }
  assert (Gx : (qabs (gam i w) <= x)%Qc).
  { apply (sum_ge (fun i => qabs (gam i w))); [intros; apply qabs_nonneg|apply in_seq; lia]. }
  rewrite qabs_pos_eq in A1.
  - clear - A1 Hx Gx. qlra.
  - apply Qc_mul_nonneg; auto. clear - M0. qlra.
Qed.

Lemma solved_total i : i < n ->
  total (g i) u (fun k => qsum (map (fun l => (HP l k - qsum (map (fun m => g m u * HJ m l k) (seq 0 n))) * K l i)%Qc (seq 0 n))).
Proof.
  intros Hi. apply total_little.
  set (DB := fun l k => (HP l k - qsum (map (fun m => g m u * HJ m l k) (seq 0 n)))%Qc).
  apply (little_ext u (fun w => qsum (map (fun l => K l i * (B l w - B l u - linear u (DB l) w)) (seq 0 n)) -
                               qsum (map (fun l => K l i * N l w) (seq 0 n)))%Qc).
  - generalize moved. apply eventually_imp. intros w _ M. change (g i w - g i u)%Qc with (gam i w). rewrite (M i Hi).
    rewrite (linear_ext u _ (fun k => qsum (map (fun l => K l i * DB l k)%Qc (seq 0 n)))) by (intros; apply qsum_ext; intros; unfold DB; ring).
    rewrite (linear_sum u (fun l k => K l i * DB l k)%Qc).
    rewrite <- !qsum_map_sub. apply qsum_ext. intros l _. rewrite linear_scale, B_here. ring.
  - apply little_sub.
    + apply little_sum with (f := fun l w => (K l i * (B l w - B l u - linear u (DB l) w))%Qc). intros l Hl. apply in_seq in Hl.
      apply little_scale. change (total (B l) u (DB l)). apply B_total. lia.
    + apply little_sum with (f := fun l w => (K l i * N l w)%Qc). intros l Hl. apply in_seq in Hl.
      apply little_scale. unfold N. apply little_sum with (f := fun m w => (gam m w * (JJ m l w - JJ m l u))%Qc).
      intros m Hm. apply in_seq in Hm. apply big_mul; [apply gam_big; lia|apply JJ_big; lia].
Qed.
End Solved.
