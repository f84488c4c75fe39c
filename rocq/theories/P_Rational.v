(** Rational basis functions: support, partition of unity, quotient rule. *)
From Coq Require Import List Arith Lia ZArith QArith Qcanon Permutation.
From Verif Require Import Base BaseRadix BaseQc S_Grid P_Grid S_Spline S_Value P_Basis P_Spline P_Value P_KnotGlobal P_Greville P_Bezier
  M_Rational S_Rational.
Import ListNotations.
Local Open Scope nat_scope.

Definition knot_axis (a : axis) : paxis := KnotAxis (fst a) (snd a).
Definition local_weight (axes : list axis) (us : list Qc) (off : list nat) : Qc :=
  fold_right Qcmult 1%Qc
    (map (fun auo : axis * Qc * nat => let '(a, u, o) := auo in
            bspline_basis (snd a) (fst a) (n_basis a) u (first_nonzero a u + o))
         (combine (combine axes us) off)).
Definition start_of (axes : list axis) (us : list Qc) : list nat :=
  map (fun au => first_nonzero (fst au) (snd au)) (combine axes us).
Definition add_start (start off : list nat) : list nat := map (fun ab => fst ab + snd ab) (combine start off).

Lemma bspline_window a u (g : nat -> Qc) : axis_wf a -> in_domain (fst a) (n_basis a) (snd a) u ->
  first_nonzero a u + fst a < n_basis a /\
  qsum (map (fun i => bspline_basis (snd a) (fst a) (n_basis a) u i * g i)%Qc (seq 0 (n_basis a))) =
  qsum (map (fun o => bspline_basis (snd a) (fst a) (n_basis a) u (first_nonzero a u + o)%nat * g (first_nonzero a u + o)%nat)%Qc
         (seq 0 (fst a + 1))).
Proof.
  intros W D. destruct a as [p kv]. unfold axis_wf in W. cbn [fst snd] in *. unfold first_nonzero. cbn [fst snd].
  destruct (find_span_spec kv p (n_basis (p, kv)) u W D) as (A & B & _).
  set (n := n_basis (p, kv)) in *. set (s := find_span kv p n u) in *.
  split; [lia|].
  replace (seq 0 n) with (seq 0 ((s - p) + ((p + 1) + (n - s - 1)))) by (f_equal; lia).
  rewrite (seq_app (s - p)), (seq_app (p + 1) (n - s - 1)), !map_app, !qsum_app. cbn [Nat.add].
  rewrite (qsum_zero _ (seq 0 (s - p))), (qsum_zero _ (seq (s - p + (p + 1)) _)).
  - rewrite Qcplus_0_l, Qcplus_0_r. f_equal.
    replace (seq (s - p) (p + 1)) with (map (fun k => s - p + k) (seq 0 (p + 1))) by (rewrite seq_shift_add; f_equal; lia).
    rewrite map_map. reflexivity.
  - intros i Hi. apply in_seq in Hi. unfold bspline_basis. fold s. rewrite basis_blossom, blossom_right by lia. ring.
  - intros i Hi. apply in_seq in Hi. unfold bspline_basis. fold s. rewrite basis_blossom, blossom_left; [ring|].
    rewrite repeat_length. lia.
Qed.

Lemma tensor_window axes us c :
  Forall axis_wf axes -> Forall2 (fun a u => in_domain (fst a) (n_basis a) (snd a) u) axes us ->
  tensor (sp_basis (map knot_axis axes) us) c =
  qsum (map (fun off => local_weight axes us off * c (add_start (start_of axes us) off))%Qc (c_indices (local_shape axes))).
Proof.
  intros W D. revert c W. induction D as [|a u axes us Hd D IH]; intros c W.
  - cbn. ring.
  - inversion_clear W as [|? ? Wa W'].
    change (sp_basis (map knot_axis (a :: axes)) (u :: us)) with
      ((n_basis a, bspline_basis (snd a) (fst a) (n_basis a) u) :: sp_basis (map knot_axis axes) us).
    cbn [tensor].
    destruct (bspline_window a u (fun i => tensor (sp_basis (map knot_axis axes) us) (fun ix => c (i :: ix))) Wa Hd) as [_ ->].
    cbn [local_shape map c_indices]. rewrite qsum_flat_map. apply qsum_ext. intros o _.
    rewrite map_map, IH by auto. rewrite <- qsum_map_mul_l. apply qsum_ext. intros off _.
    unfold local_weight. cbn [combine map fold_right fst snd].
    unfold add_start, start_of. cbn [combine map fst snd]. ring.
Qed.

Lemma window_valid axes us off :
  Forall axis_wf axes -> Forall2 (fun a u => in_domain (fst a) (n_basis a) (snd a) u) axes us ->
  valid_digits (local_shape axes) off -> valid_digits (map n_basis axes) (add_start (start_of axes us) off).
Proof.
  intros W D. revert off W. induction D as [|a u axes us Hd D IH]; intros off W V.
  - inversion V. constructor.
  - inversion_clear W as [|? ? Wa W']. inversion V as [|? o ? off' Ho V']; subst.
    unfold add_start, start_of. cbn [combine map fst snd]. constructor.
    + destruct (bspline_window a u (fun _ => 0%Qc) Wa Hd) as [H _]. cbn. lia.
    + now apply IH.
Qed.

Lemma local_window axes us (f : nat -> Qc) :
  Forall axis_wf axes -> Forall2 (fun a u => in_domain (fst a) (n_basis a) (snd a) u) axes us ->
  functional (map knot_axis axes) us f =
  qsum (map (fun Ni => fst Ni * f (snd Ni))%Qc (combine (local_basis axes us) (support_of axes us))).
Proof.
  intros W D. unfold functional. rewrite tensor_window by auto.
  rewrite (qsum_perm _ _ (Permutation_map _ (c_f_perm _))).
  unfold local_basis, support_of. fold (start_of axes us).
  generalize (f_indices (local_shape axes)) as l. intros l. induction l as [|o l IH]; auto.
  cbn [map combine qsum fst snd]. rewrite IH. f_equal. f_equal.
  rewrite map_map. reflexivity.
Qed.
Lemma local_lengths axes us : length (local_basis axes us) = length (support_of axes us).
Proof. unfold local_basis, support_of. now rewrite !map_length. Qed.

Lemma support_lt axes us g :
  Forall axis_wf axes -> Forall2 (fun a u => in_domain (fst a) (n_basis a) (snd a) u) axes us ->
  In g (support_of axes us) -> g < fold_right Nat.mul 1 (map n_basis axes).
Proof.
  intros W D H. unfold support_of in H. apply in_map_iff in H. destruct H as (off & <- & Ho).
  apply in_f_indices in Ho. pose proof (window_valid axes us off W D Ho) as V.
  fold (start_of axes us). fold (add_start (start_of axes us) off).
  rewrite flat_id_undigits by (now apply valid_length). rewrite fold_right_mul_prodn. now apply undigits_lt.
Qed.
Lemma local_basis_nonneg axes us N :
  Forall axis_wf axes -> Forall2 (fun a u => in_domain (fst a) (n_basis a) (snd a) u) axes us ->
  In N (local_basis axes us) -> (0 <= N)%Qc.
Proof.
  intros W D H. unfold local_basis in H. apply in_map_iff in H. destruct H as (off & <- & Ho).
  apply in_f_indices in Ho. revert off Ho W. induction D as [|a u axes us Hd D IH]; intros off Ho W.
  - cbn. discriminate.
  - inversion_clear W. inversion Ho as [|? o ? off' Hoo V']; subst. cbn [combine map fold_right].
    apply Qc_mul_nonneg; auto. now apply bspline_basis_nonneg.
Qed.
Lemma local_basis_sum axes us :
  Forall axis_wf axes -> Forall2 (fun a u => in_domain (fst a) (n_basis a) (snd a) u) axes us ->
  qsum (local_basis axes us) = 1%Qc.
Proof.
  intros W D.
  transitivity (functional (map knot_axis axes) us (fun _ => 1%Qc)).
  - rewrite local_window by auto. pose proof (local_lengths axes us) as L. revert L.
    generalize (local_basis axes us) (support_of axes us). intros l. induction l; intros [|y m] L; cbn in *; try lia; auto.
    rewrite (IHl m) by lia. ring.
  - unfold functional. apply tensor_one. revert W; induction D; intros W; cbn; constructor; inversion_clear W; auto.
    cbn. now apply bspline_basis_sum.
Qed.

Lemma fold_left_Qcplus l a : fold_left Qcplus l a = (a + qsum l)%Qc.
Proof. revert a; induction l; intros; cbn; [ring|]. rewrite IHl. ring. Qed.
Lemma rational_basis_alt Ns ws supp : rational_basis Ns ws supp =
  map (fun Ni => fst Ni * nth (snd Ni) ws 0 / qsum (map (fun Ni => fst Ni * nth (snd Ni) ws 0) (combine Ns supp)))%Qc (combine Ns supp).
Proof.
  unfold rational_basis. rewrite fold_left_Qcplus, Qcplus_0_l, map_map. apply map_ext. intros x.
  unfold Qcdiv. ring.
Qed.

Section Rational.
Variables (Ns ws : list Qc) (supp : list nat).
Let W := qsum (map (fun Ni => fst Ni * nth (snd Ni) ws 0)%Qc (combine Ns supp)).
Lemma rational_sum : W <> 0%Qc -> qsum (rational_basis Ns ws supp) = 1%Qc.
Proof.
  intros H. rewrite rational_basis_alt. fold W. 
  rewrite (qsum_ext _ (fun Ni => fst Ni * nth (snd Ni) ws 0 * / W)%Qc) by reflexivity.
  rewrite qsum_map_mul_r. fold W. field. exact H.
Qed.
Lemma rational_nonneg r : (forall x, In x Ns -> 0 <= x)%Qc -> (forall g, In g supp -> 0 <= nth g ws 0)%Qc ->
  In r (rational_basis Ns ws supp) -> (0 <= r)%Qc.
Proof.
  intros HN HW Hr. rewrite rational_basis_alt in Hr. fold W in Hr. apply in_map_iff in Hr. destruct Hr as ([x g] & <- & Hx).
  cbn [fst snd]. 
  assert (P : forall y g, In (y, g) (combine Ns supp) -> (0 <= y * nth g ws 0)%Qc).
  { intros y h Hy. apply Qc_mul_nonneg; [eapply HN, in_combine_l|eapply HW, in_combine_r]; eauto. }
  assert (0 <= W)%Qc. { unfold W. apply qsum_nonneg. intros [y h] Hy. now apply P. }
  specialize (P x g Hx). revert P. generalize (x * nth g ws 0)%Qc as y. intros y P.
  destruct (Qc_eq_dec W 0) as [E|E].
  - rewrite E. unfold Qcdiv. replace (/ 0)%Qc with 0%Qc by reflexivity. rewrite Qcmult_0_r. apply Qcle_refl.
  - apply Qc_le_div; [|qlra]. apply Qcle_lt_or_eq in H. destruct H; congruence.
Qed.
Lemma rational_combination (f : nat -> Qc) :
  qsum (map (fun Rg => fst Rg * f (snd Rg))%Qc (combine (rational_basis Ns ws supp) supp)) =
  (qsum (map (fun Ni => fst Ni * (nth (snd Ni) ws 0 * f (snd Ni)))%Qc (combine Ns supp)) / W)%Qc.
Proof.
  rewrite rational_basis_alt. fold W. generalize W as w. intros w. generalize supp as m0. generalize Ns as l0.
  intros l0; induction l0 as [|x l IH]; intros [|g m]; cbn [combine map qsum fst snd].
  - unfold Qcdiv. ring.
  - unfold Qcdiv. ring.
  - unfold Qcdiv. ring.
  - rewrite IH. unfold Qcdiv. ring.
Qed.
End Rational.
Lemma rational_scale Ns ws supp c : c <> 0%Qc ->
  rational_basis Ns (map (Qcmult c) ws) supp = rational_basis Ns ws supp.
Proof.
  intros Hc. rewrite !rational_basis_alt.
  assert (E : forall g, nth g (map (Qcmult c) ws) 0%Qc = (c * nth g ws 0)%Qc).
  { intros g. rewrite <- (map_nth (Qcmult c)). now rewrite Qcmult_0_r. }
  assert (ES : qsum (map (fun Ni => fst Ni * nth (snd Ni) (map (Qcmult c) ws) 0)%Qc (combine Ns supp)) =
               (c * qsum (map (fun Ni => fst Ni * nth (snd Ni) ws 0)%Qc (combine Ns supp)))%Qc).
  { rewrite <- qsum_map_mul_l. apply qsum_ext. intros x _. rewrite E. ring. }
  rewrite ES. apply map_ext. intros [x g]. cbn [fst snd]. rewrite E.
  generalize (qsum (map (fun Ni => fst Ni * nth (snd Ni) ws 0)%Qc (combine Ns supp))) as w. intros w.
  destruct (Qc_eq_dec w 0) as [Z|Z].
  - rewrite Z, Qcmult_0_r. unfold Qcdiv. replace (/ 0)%Qc with 0%Qc by reflexivity. ring.
  - field. auto.
Qed.

Lemma nurbs_value axes cps ws us d :
  Forall axis_wf axes -> Forall2 (fun a u => in_domain (fst a) (n_basis a) (snd a) u) axes us ->
  qsum (map (fun Rg => fst Rg * nth d (nth (snd Rg) cps []) 0)%Qc
     (combine (rational_basis (local_basis axes us) ws (support_of axes us)) (support_of axes us))) =
  sp_value (Spl (map knot_axis axes) cps (Some ws)) us d.
Proof.
  intros W D. rewrite sp_value_functional. cbn [sp_weights sp_axes sp_cps].
  rewrite !local_window by auto.
  rewrite (rational_combination _ _ _ (fun g => nth d (nth g cps []) 0%Qc)). reflexivity.
Qed.
Lemma bspline_value axes cps us d :
  Forall axis_wf axes -> Forall2 (fun a u => in_domain (fst a) (n_basis a) (snd a) u) axes us ->
  qsum (map (fun Ng => fst Ng * nth d (nth (snd Ng) cps []) 0)%Qc
     (combine (local_basis axes us) (support_of axes us))) =
  sp_value (Spl (map knot_axis axes) cps None) us d.
Proof.
  intros W D. rewrite sp_value_functional. cbn [sp_weights sp_axes sp_cps].
  now rewrite (local_window axes us (fun g => nth d (nth g cps []) 0%Qc)) by auto.
Qed.
Lemma weighted_sum_pos axes us ws :
  Forall axis_wf axes -> Forall2 (fun a u => in_domain (fst a) (n_basis a) (snd a) u) axes us ->
  length ws = fold_right Nat.mul 1 (map n_basis axes) -> Forall (fun w => 0 < w)%Qc ws ->
  (0 < qsum (map (fun Ni => fst Ni * nth (snd Ni) ws 0) (combine (local_basis axes us) (support_of axes us))))%Qc.
Proof.
  intros W D L P. 
  apply qsum_convex_pos with (M := fst) (f := fun Ni : Qc * nat => nth (snd Ni) ws 0%Qc).
  - intros [x g] H. cbn. apply in_combine_l in H. eapply local_basis_nonneg; eauto.
  - intros [x g] H. cbn. apply in_combine_r in H. apply support_lt in H; auto. rewrite Forall_forall in P. apply P, nth_In. lia.
  - assert (E : map fst (combine (local_basis axes us) (support_of axes us)) = local_basis axes us).
    { pose proof (local_lengths axes us) as LL. revert LL. generalize (local_basis axes us) (support_of axes us).
      intros l. induction l; intros [|y m] LL; cbn in *; try lia; auto. f_equal. apply IHl. lia. }
    rewrite E, local_basis_sum by auto. reflexivity.
Qed.

(** Derivatives: the mixed radix numbering of multi-orders. *)
Definition radices (order : list nat) : list nat := map (fun o => o + 1) order.
Lemma local_ids_digits order id : local_ids order id = digits (radices order) id.
Proof.
  revert id; induction order as [|o order IH]; intros id; auto.
  cbn [radices map digits]. fold (radices order).
  destruct o as [|o].
  - cbn [local_ids]. rewrite IH. cbn [Nat.add]. rewrite Nat.mod_1_r, Nat.div_1_r. reflexivity.
  - cbn [local_ids]. rewrite IH. f_equal. f_equal.
    rewrite (Nat.div_mod id (S o + 1)) at 1 by lia.
    replace ((S o + 1) * (id / (S o + 1)) + id mod (S o + 1) - id mod (S o + 1)) with ((id / (S o + 1)) * (S o + 1)) by lia.
    now rewrite Nat.div_mul by lia.
Qed.
Lemma global_ids_undigits order req id offset : Forall2 le req order ->
  global_ids order req id offset = id + offset * undigits (radices order) req.
Proof.
  intros H. revert id offset; induction H as [|r o req order Hr H IH]; intros id offset; cbn [global_ids radices map undigits]; [lia|].
  fold (radices order). destruct (Nat.eqb_spec o 0) as [->|Ho]; rewrite IH; nia.
Qed.
Lemma order_valid a order : order_le a order <-> valid_digits (radices order) a.
Proof.
  unfold order_le, valid_digits, radices. split.
  - induction 1; cbn; constructor; auto. lia.
  - revert a; induction order; intros b H; inversion H; subst; constructor; auto. lia.
Qed.
Lemma order_le_refl a : order_le a a.
Proof. unfold order_le. induction a; constructor; auto. Qed.
Lemma radices_pos order : Forall (fun r => 0 < r) (radices order).
Proof. unfold radices. apply Forall_map, Forall_forall. intros; lia. Qed.
Lemma undigits_max order : undigits (radices order) order + 1 = prodn (radices order).
Proof. induction order as [|o order IH]; cbn; auto. fold (radices order). nia. Qed.
Lemma number_prodn order : number_of_derivs order = prodn (radices order).
Proof.
  unfold number_of_derivs. rewrite global_ids_undigits by apply order_le_refl.
  rewrite <- undigits_max. lia.
Qed.
Lemma order_le_trans a b c : order_le a b -> order_le b c -> order_le a c.
Proof.
  intros H. revert c; induction H; intros c' H'; inversion H'; subst; constructor; try lia.
  now apply IHForall2.
Qed.
Lemma order_sub_le a b : order_le b a -> order_le (order_sub a b) a.
Proof. induction 1; cbn; constructor; auto. lia. Qed.
Lemma undigits_sub rs a b : order_le b a -> length rs = length a ->
  undigits rs b <= undigits rs a /\ undigits rs (order_sub a b) = undigits rs a - undigits rs b.
Proof.
  intros H. revert rs; induction H as [|y x b a Hxy H IH]; intros [|r rs] L; cbn in *; try lia.
  destruct (IH rs ltac:(lia)) as [A B]. unfold order_sub in B. rewrite B. split; nia.
Qed.
Lemma subset_spec mx req : length mx = length req -> is_not_subset mx req = false <-> order_le req mx.
Proof.
  unfold is_not_subset, order_le. revert req; induction mx as [|x mx IH]; intros [|y req] L; cbn in *; try lia.
  - split; auto.
  - rewrite Bool.orb_false_iff, IH by lia. destruct (Nat.ltb_spec x y); split.
    + intros [? ?]; discriminate.
    + intros H'. inversion H'. lia.
    + intros [_ ?]. constructor; auto.
    + intros H'. inversion H'. auto.
Qed.
Lemma binom_fact_order a b : binom_fact a b = order_binom a b.
Proof.
  unfold binom_fact, order_binom. generalize (combine a b) as l. intros l.
  assert (G : forall k, fold_left (fun f (ab : nat * nat) => f * binom (fst ab) (snd ab)) l k =
    k * fold_right Nat.mul 1 (map (fun xy => binom (fst xy) (snd xy)) l)).
  { induction l; intros k; cbn; [lia|]. rewrite IHl. nia. }
  rewrite G. lia.
Qed.
Lemma below_indices a : below a = c_indices (radices a).
Proof. induction a; cbn; auto. rewrite IHa. reflexivity. Qed.
Lemma in_below a b : In b (below a) <-> order_le b a.
Proof. rewrite below_indices, in_c_indices. symmetry. apply order_valid. Qed.
Lemma NoDup_below a : NoDup (below a).
Proof. rewrite below_indices. apply NoDup_c_indices. Qed.
Lemma order_zero a : order_sub a (map (fun _ => 0) a) = a.
Proof. unfold order_sub. induction a; cbn; auto. rewrite IHa. f_equal. lia. Qed.
Lemma digits_0 rs : Forall (fun r => 0 < r) rs -> digits rs 0 = map (fun _ => 0) rs.
Proof. induction 1; cbn; auto. rewrite Nat.mod_0_l, Nat.div_0_l by lia. now rewrite IHForall. Qed.
Lemma order_binom_zero a : order_binom a (map (fun _ => 0) a) = 1.
Proof. unfold order_binom. induction a; cbn; auto. rewrite IHa, binom_0. lia. Qed.

(** Sums over the orders below a are sums over smaller numbers. *)
Lemma below_perm order a : order_le a order ->
  Permutation (map (undigits (radices order)) (below a))
    (filter (fun j => negb (is_not_subset a (digits (radices order) j))) (seq 0 (undigits (radices order) a + 1))).
Proof.
  intros H. assert (LA := Forall2_len _ _ _ H).
  assert (LR : length (radices order) = length a) by (unfold radices; rewrite map_length; auto).
  apply NoDup_Permutation.
  - apply NoDup_map_inv_dom; [|apply NoDup_below]. intros x y Hx Hy. apply in_below in Hx, Hy.
    apply undigits_inj; apply order_valid; eauto using order_le_trans.
  - apply NoDup_filter, seq_NoDup.
  - intros j. rewrite in_map_iff, filter_In. split.
    + intros (b & <- & Hb). apply in_below in Hb.
      destruct (undigits_sub (radices order) a b Hb LR) as [L _]. split; [apply in_seq; lia|].
      rewrite digits_undigits by (apply order_valid; eauto using order_le_trans).
      apply Bool.negb_true_iff. apply subset_spec; auto. now rewrite (Forall2_len _ _ _ Hb).
    + intros [Hj Hs]. apply in_seq in Hj. apply Bool.negb_true_iff in Hs.
      apply subset_spec in Hs; [|now rewrite length_digits].
      exists (digits (radices order) j). split; [|now apply in_below].
      apply undigits_digits. assert (V := undigits_lt _ _ (proj1 (order_valid _ _) H)). lia.
Qed.

Section Quotient.
Variables (N : list nat -> nat -> Qc) (w : nat -> Qc) (n : nat) (order : list nat).
Let rs := radices order.
Let D (i : nat) : nat -> Qc := nth i (all_derivatives N w n order (i + 1)) (fun _ => 0%Qc).

Lemma all_derivatives_S m : all_derivatives N w n order (S m) =
  all_derivatives N w n order m ++ [next_derivative N w n order (all_derivatives N w n order m) m].
Proof. unfold all_derivatives. rewrite seq_S, fold_left_app. reflexivity. Qed.
Lemma all_derivatives_length m : length (all_derivatives N w n order m) = m.
Proof. induction m; auto. rewrite all_derivatives_S, app_length. cbn. lia. Qed.
Lemma all_derivatives_nth m i : i < m -> nth i (all_derivatives N w n order m) (fun _ => 0%Qc) = D i.
Proof.
  induction m; intros H; [lia|]. destruct (Nat.eq_dec i m) as [->|].
  - unfold D. f_equal. f_equal. lia.
  - rewrite all_derivatives_S, app_nth1 by (rewrite all_derivatives_length; lia). apply IHm. lia.
Qed.
Lemma D_next i : D i = next_derivative N w n order (all_derivatives N w n order i) i.
Proof.
  unfold D. replace (i + 1) with (S i) by lia. rewrite all_derivatives_S.
  rewrite app_nth2; rewrite all_derivatives_length; [|lia]. now rewrite Nat.sub_diag.
Qed.
Lemma w_derivative_spec i : w_derivative N w n order i = weight_derivative N w n (digits rs i).
Proof.
  unfold w_derivative, weight_derivative. rewrite fold_left_sum, local_ids_digits. fold rs. ring.
Qed.
Lemma fold_left_sub_if {A} (c : A -> bool) (f : A -> Qc) l a :
  fold_left (fun acc j => if c j then acc else (acc - f j)%Qc) l a =
  (a - qsum (map f (filter (fun j => negb (c j)) l)))%Qc.
Proof.
  revert a; induction l as [|x l IH]; intros a; cbn [fold_left filter]; [cbn; ring|].
  rewrite IH. destruct (c x); cbn [negb map qsum]; ring.
Qed.
Lemma fold_left_ext_in {A B} (f g : A -> B -> A) l a :
  (forall x y, In y l -> f x y = g x y) -> fold_left f l a = fold_left g l a.
Proof. revert a; induction l; cbn; intros a0 H; auto. rewrite H by auto. apply IHl. auto. Qed.

Hypothesis W0 : weight_derivative N w n (map (fun _ => 0) order) <> 0%Qc.
Lemma rs_zero : digits rs 0 = map (fun _ => 0) order.
Proof. unfold rs. rewrite digits_0 by apply radices_pos. unfold radices. now rewrite map_map. Qed.

Lemma D_spec i ib : 
  (weight_derivative N w n (digits rs 0) * D i ib +
   qsum (map (fun j => inj (order_binom (digits rs i) (digits rs j)) * weight_derivative N w n (digits rs j) * D (i - j) ib)
      (filter (fun j => negb (is_not_subset (digits rs i) (digits rs j))) (seq 1 i))))%Qc
  = (w ib * N (digits rs i) ib)%Qc.
Proof.
  rewrite D_next. unfold next_derivative.
  rewrite (fold_left_ext_in _ (fun acc j => if is_not_subset (digits rs i) (digits rs j) then acc else
     (acc - inj (order_binom (digits rs i) (digits rs j)) * weight_derivative N w n (digits rs j) * D (i - j)%nat ib)%Qc)).
  - rewrite fold_left_sub_if. unfold inv_w_fact. rewrite w_derivative_spec. unfold A_derivative.
    rewrite !local_ids_digits. fold rs. rewrite rs_zero in *. field. exact W0.
  - intros x j Hj. apply in_seq in Hj. rewrite !local_ids_digits, binom_fact_order, w_derivative_spec. fold rs.
    rewrite all_derivatives_nth by lia. reflexivity.
Qed.

Lemma is_not_subset_zero a : is_not_subset a (map (fun _ => 0) a) = false.
Proof. unfold is_not_subset. induction a; cbn; auto. Qed.

(** One equation of the quotient rule, for any R that agrees with D below. *)
Lemma quotient_equation (R : list nat -> nat -> Qc) a ib :
  order_le a order ->
  (forall b, order_le b a -> b <> map (fun _ => 0) a -> R (order_sub a b) ib = D (undigits rs a - undigits rs b) ib) ->
  qsum (map (fun b => inj (order_binom a b) * weight_derivative N w n b * R (order_sub a b) ib)%Qc (below a)) =
  (w ib * N a ib + weight_derivative N w n (map (fun _ => 0%nat) order) * (R a ib - D (undigits rs a) ib))%Qc.
Proof.
  intros Ha HR.
  assert (LA := Forall2_len _ _ _ Ha).
  assert (VA : valid_digits rs a) by (now apply order_valid).
  assert (DA : digits rs (undigits rs a) = a) by (now apply digits_undigits).
  assert (ZA : map (fun _ : nat => 0) order = map (fun _ : nat => 0) a).
  { clear - LA. revert order LA. induction a; intros [|o order] L; cbn in *; try lia; auto. f_equal. apply IHa. lia. }
  assert (Z0 : digits rs 0 = map (fun _ => 0) a) by (rewrite rs_zero; auto).
  set (F := fun j => (inj (order_binom a (digits rs j)) * weight_derivative N w n (digits rs j) * R (order_sub a (digits rs j)) ib)%Qc).
  transitivity (qsum (map F (map (undigits rs) (below a)))).
  { rewrite map_map. apply qsum_ext. intros b Hb. apply in_below in Hb. unfold F.
    rewrite digits_undigits; auto. apply order_valid. eauto using order_le_trans. }
  pose proof (below_perm order a Ha) as BP. fold rs in BP. rewrite (qsum_perm _ _ (Permutation_map F BP)).
  replace (undigits rs a + 1) with (S (undigits rs a)) by lia. cbn [seq filter]. rewrite Z0, is_not_subset_zero. cbn [negb map qsum].
  unfold F at 1. rewrite Z0, order_binom_zero, order_zero, inj_1.
  pose proof (D_spec (undigits rs a) ib) as E. rewrite DA, Z0 in E. rewrite <- E, ZA.
  rewrite (qsum_ext F (fun j => inj (order_binom a (digits rs j)) * weight_derivative N w n (digits rs j) * D (undigits rs a - j)%nat ib)%Qc).
  - ring.
  - intros j Hj. apply filter_In in Hj. destruct Hj as [Hj Hs]. apply in_seq in Hj. apply Bool.negb_true_iff in Hs.
    apply subset_spec in Hs; [|unfold rs, radices; rewrite length_digits, map_length; auto].
    unfold F. rewrite HR; auto.
    + do 2 f_equal. rewrite undigits_digits; auto. pose proof (undigits_lt _ _ VA). lia.
    + intros Z. rewrite <- Z0 in Z. apply (f_equal (undigits rs)) in Z.
      rewrite !undigits_digits in Z; pose proof (undigits_lt _ _ VA); lia.
Qed.

Lemma quotient_rule_holds : quotient_rule N w n order (fun a => D (undigits rs a)).
Proof.
  intros a i Ha Hi. rewrite (quotient_equation (fun a => D (undigits rs a)) a i Ha); [ring|].
  intros b Hb _. f_equal. assert (LA := Forall2_len _ _ _ Ha).
  apply undigits_sub; auto. unfold rs, radices. now rewrite map_length.
Qed.
Lemma quotient_rule_unique R a ib : quotient_rule N w n order R -> ib < n -> order_le a order ->
  R a ib = D (undigits rs a) ib.
Proof.
  intros HR Hi. remember (undigits rs a) as m eqn:Em. revert a Em. induction m as [m IH] using lt_wf_ind. intros a Em Ha.
  assert (LA := Forall2_len _ _ _ Ha).
  assert (LR : length rs = length a) by (unfold rs, radices; now rewrite map_length).
  pose proof (HR a ib Ha Hi) as E.
  rewrite quotient_equation in E; auto.
  - rewrite <- Em in E.
    assert (Z : (weight_derivative N w n (map (fun _ => 0%nat) order) * (R a ib - D m ib))%Qc = 0%Qc).
    { transitivity ((w ib * N a ib + weight_derivative N w n (map (fun _ => 0%nat) order) * (R a ib - D m ib)) - w ib * N a ib)%Qc;
        [ring|rewrite E; ring]. }
    apply Qcmult_integral in Z. destruct Z as [Z|Z]; [congruence|].
    rewrite <- (Qcplus_0_l (D m ib)), <- Z. ring.
  - intros b Hb NZ. destruct (undigits_sub rs a b Hb LR) as [L S1].
    assert (P : 0 < undigits rs b).
    { destruct (Nat.eq_dec (undigits rs b) 0) as [Z|]; [|lia]. exfalso. apply NZ.
      assert (Vb : valid_digits rs b) by (apply order_valid; eauto using order_le_trans).
      rewrite <- (digits_undigits _ _ Vb), Z, rs_zero. clear - LA. revert order LA.
      induction a; intros [|o order] L; cbn in *; try lia; auto. f_equal. apply IHa. lia. }
    rewrite <- S1. apply IH with (m := undigits rs (order_sub a b)); auto; [lia|].
    apply order_le_trans with a; auto. now apply order_sub_le.
Qed.
Lemma rational_basis_derivative_spec :
  rational_basis_derivative N w n order = map (D (undigits rs order)) (seq 0 n).
Proof.
  unfold rational_basis_derivative. rewrite number_prodn. fold rs.
  pose proof (undigits_max order) as E. fold rs in E.
  rewrite all_derivatives_nth by lia. now replace (prodn rs - 1) with (undigits rs order) by lia.
Qed.
Lemma rational_derivative_correct :
  (exists R, quotient_rule N w n order R) /\
  forall R, quotient_rule N w n order R ->
    rational_basis_derivative N w n order = map (R order) (seq 0 n).
Proof.
  split; [eexists; apply quotient_rule_holds|]. intros R HR.
  rewrite rational_basis_derivative_spec. apply map_ext_in. intros i Hi. apply in_seq in Hi.
  symmetry. apply quotient_rule_unique; auto; [lia|apply order_le_refl].
Qed.
End Quotient.
Lemma rational_positive axes us ws :
  Forall axis_wf axes -> Forall2 (fun a u => in_domain (fst a) (n_basis a) (snd a) u) axes us ->
  length ws = fold_right Nat.mul 1 (map n_basis axes) -> Forall (fun w => 0 < w)%Qc ws ->
  let R := rational_basis (local_basis axes us) ws (support_of axes us) in
  length R = length (support_of axes us) /\
  Forall (fun g => g < length ws) (support_of axes us) /\
  Forall (fun r => 0 <= r)%Qc R /\ qsum R = 1%Qc.
Proof.
  intros W D L P R.
  assert (S1 : forall g, In g (support_of axes us) -> g < length ws) by (intros; rewrite L; eapply support_lt; eauto).
  split; [|split; [|split]].
  - unfold R. rewrite rational_basis_alt, map_length, combine_length, local_lengths. lia.
  - now apply Forall_forall.
  - apply Forall_forall. intros r Hr. eapply rational_nonneg; [| |exact Hr].
    + intros x Hx. eapply local_basis_nonneg; eauto.
    + intros g Hg. apply Qclt_le_weak. rewrite Forall_forall in P. apply P, nth_In. auto.
  - apply rational_sum. pose proof (weighted_sum_pos axes us ws W D L P) as G. intros Z. rewrite Z in G. discriminate.
Qed.
