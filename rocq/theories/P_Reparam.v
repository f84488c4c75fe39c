(** Permuting and flipping parametric axes. *)
From Coq Require Import List Arith Lia ZArith QArith Qcanon Permutation Sorted.
From Verif Require Import Base BaseRadix BaseQc M_Numpy S_Grid M_Grid P_Grid S_Spline S_Value
  P_Basis P_Spline P_Value M_Extract P_Extract M_Reparam S_Reparam.
Import ListNotations.
Local Open Scope nat_scope.

(** argsort *)
Lemma arg_insert_perm key i l : Permutation (arg_insert key i l) (i :: l).
Proof.
  induction l as [|j r IH]; cbn; auto. destruct (key i <=? key j); auto.
  rewrite IH. apply perm_swap.
Qed.
Lemma argsort_perm keys : Permutation (argsort keys) (seq 0 (length keys)).
Proof.
  unfold argsort. generalize (seq 0 (length keys)). intros l.
  induction l; cbn; auto. rewrite arg_insert_perm. now constructor.
Qed.
Lemma arg_insert_sorted key i l :
  StronglySorted (fun a b => key a <= key b) l ->
  StronglySorted (fun a b => key a <= key b) (arg_insert key i l).
Proof.
  induction 1 as [|j r H IH HF]; cbn.
  - repeat constructor.
  - destruct (Nat.leb_spec (key i) (key j)).
    + constructor; [constructor; auto|]. constructor; auto.
      eapply Forall_impl; [|exact HF]. cbn. lia.
    + constructor; auto. apply Forall_forall. intros x Hx.
      apply (Permutation_in _ (arg_insert_perm key i r)) in Hx. destruct Hx as [<-|Hx]; [lia|].
      rewrite Forall_forall in HF. auto.
Qed.
Lemma argsort_sorted keys :
  StronglySorted (fun a b => nth a keys 0 <= nth b keys 0) (argsort keys).
Proof.
  unfold argsort. generalize (seq 0 (length keys)). intros l.
  induction l; cbn; [constructor|]. now apply arg_insert_sorted.
Qed.
Lemma sorted_le_unique l l' :
  StronglySorted le l -> StronglySorted le l' -> Permutation l l' -> l = l'.
Proof.
  intros H; revert l'; induction H as [|x l H IH HF]; intros l' H' P.
  - apply Permutation_nil in P. auto.
  - destruct l' as [|y l']; [apply Permutation_sym, Permutation_nil in P; discriminate|].
    inversion H' as [|? ? S' F']; subst.
    rewrite Forall_forall in HF, F'.
    assert (x = y).
    { assert (In x (y :: l')) by (eapply Permutation_in; [exact P|left; auto]).
      assert (In y (x :: l)) by (eapply Permutation_in; [symmetry; exact P|left; auto]).
      destruct H0 as [->|H0]; auto. destruct H1 as [->|H1]; auto.
      specialize (HF y H1). specialize (F' x H0). lia. }
    subst y. f_equal. apply IH; auto. now apply Permutation_cons_inv in P.
Qed.
Lemma StronglySorted_seq s n : StronglySorted le (seq s n).
Proof.
  revert s; induction n; intros s; cbn; constructor; auto.
  apply Forall_forall. intros x Hx. apply in_seq in Hx. lia.
Qed.
Lemma StronglySorted_map {A B} (f : A -> B) (R : B -> B -> Prop) l :
  StronglySorted (fun a b => R (f a) (f b)) l -> StronglySorted R (map f l).
Proof. induction 1; cbn; constructor; auto. now apply Forall_map. Qed.

Lemma map_nth_seq' {A} (l : list A) d : map (fun i => nth i l d) (seq 0 (length l)) = l.
Proof. apply map_nth_seq. Qed.

Lemma argsort_inverse keys m :
  Permutation keys (seq 0 (length keys)) -> m < length keys ->
  nth (nth m (argsort keys) 0) keys 0 = m.
Proof.
  intros P Hm.
  assert (E : map (fun i => nth i keys 0) (argsort keys) = seq 0 (length keys)).
  { apply sorted_le_unique.
    - apply StronglySorted_map, argsort_sorted.
    - apply StronglySorted_seq.
    - rewrite (Permutation_map _ (argsort_perm keys)), map_nth_seq'. exact P. }
  assert (L : length (argsort keys) = length keys)
    by (rewrite (Permutation_length (argsort_perm keys)), seq_length; auto).
  pose proof (f_equal (fun l => nth m l 0) E) as G. cbn beta in G.
  rewrite seq_nth in G by auto.
  rewrite (nth_indep _ 0 (nth 0 keys 0)) in G by (rewrite map_length; lia).
  rewrite (map_nth (fun i => nth i keys 0)) in G. exact G.
Qed.

(** Reindexing the sum over all control points. *)
Lemma functional_flat axes us f :
  length us = length axes ->
  functional axes us f =
  qsum (map (fun g => (weight (sp_basis axes us) (digits (map ax_n axes) g) * f g)%Qc)
            (seq 0 (prodn (map ax_n axes)))).
Proof.
  intros L. unfold functional. rewrite <- (sp_basis_fst axes us L). apply tensor_flat.
Qed.

Lemma functional_reindex axes us axes' us' ids f :
  length us = length axes -> length us' = length axes' ->
  prodn (map ax_n axes') = prodn (map ax_n axes) ->
  Permutation ids (seq 0 (prodn (map ax_n axes))) ->
  (forall g, g < prodn (map ax_n axes) ->
     weight (sp_basis axes' us') (digits (map ax_n axes') g) =
     weight (sp_basis axes us) (digits (map ax_n axes) (nth g ids 0))) ->
  functional axes' us' (fun g => f (nth g ids 0)) = functional axes us f.
Proof.
  intros L L' EN P H. rewrite !functional_flat by auto. rewrite EN.
  set (N := prodn (map ax_n axes)) in *.
  assert (LN : length ids = N) by (rewrite (Permutation_length P), seq_length; auto).
  transitivity (qsum (map (fun g => (weight (sp_basis axes us) (digits (map ax_n axes) g) * f g)%Qc) ids)).
  - pose proof (map_nth_seq' ids 0) as E. rewrite LN in E.
    transitivity (qsum (map (fun g => (weight (sp_basis axes us) (digits (map ax_n axes) g) * f g)%Qc)
                            (map (fun i => nth i ids 0) (seq 0 N)))); [|now rewrite E].
    rewrite map_map. apply qsum_ext.
    intros g Hg. apply in_seq in Hg. rewrite H by lia. reflexivity.
  - apply qsum_perm, Permutation_map, P.
Qed.

(** Products are independent of the order of the axes. *)
Fixpoint qprod (l : list Qc) : Qc := match l with [] => 1 | x :: l => (x * qprod l)%Qc end.
Lemma qprod_perm a b : Permutation a b -> qprod a = qprod b.
Proof. induction 1; cbn; try congruence. ring. Qed.

Definition factor (ws : list (nat * (nat -> Qc))) (ix : list nat) (k : nat) : Qc :=
  snd (nth k ws (0, fun _ => 1%Qc)) (nth k ix 0).
Lemma weight_qprod ws ix :
  length ix = length ws -> weight ws ix = qprod (map (factor ws ix) (seq 0 (length ws))).
Proof.
  revert ix; induction ws as [|[n w] ws IH]; intros [|i ix] H; cbn in H; try lia; auto.
  cbn [weight length seq map qprod]. rewrite IH by lia. unfold factor at 2. cbn [nth snd]. f_equal.
  rewrite <- seq_shift, map_map. f_equal.
Qed.

Lemma seq_perm_in_range n p : Permutation p (seq 0 n) -> forall i, In i p -> i < n.
Proof. intros P i Hi. apply (Permutation_in _ P) in Hi. apply in_seq in Hi. lia. Qed.

(** Reorder a list by positions. *)
Definition take {A} (d : A) (p : list nat) (l : list A) : list A := map (fun i => nth i l d) p.

Lemma nth_take {A} (d : A) p l k : k < length p -> nth k (take d p l) d = nth (nth k p 0) l d.
Proof.
  intros H. unfold take.
  rewrite (nth_indep _ d (nth 0 l d)) by (rewrite map_length; auto).
  apply (map_nth (fun i => nth i l d)).
Qed.
Lemma take_perm {A} (d : A) p l : Permutation p (seq 0 (length l)) -> Permutation (take d p l) l.
Proof.
  intros P. unfold take. rewrite (Permutation_map _ P), map_nth_seq'. reflexivity.
Qed.

Lemma weight_take d p ws ix :
  length ix = length ws -> Permutation p (seq 0 (length ws)) ->
  weight (take (d, fun _ => 1%Qc) p ws) (take 0 p ix) = weight ws ix.
Proof.
  intros L P. assert (Lp : length p = length ws) by (rewrite (Permutation_length P), seq_length; auto).
  rewrite (weight_qprod ws ix L). rewrite weight_qprod by (unfold take; rewrite !map_length; auto).
  replace (length (take (d, fun _ => 1%Qc) p ws)) with (length p) by (unfold take; now rewrite map_length).
  transitivity (qprod (map (factor ws ix) (map (fun k => nth k p 0) (seq 0 (length p))))).
  - rewrite map_map. f_equal. apply map_ext_in. intros k Hk. apply in_seq in Hk.
    unfold factor. rewrite (nth_take 0) by lia. apply (f_equal (fun h => snd h (nth (nth k p 0) ix 0))).
    rewrite (nth_indep _ _ (d, fun _ => 1%Qc)) by (unfold take; rewrite map_length; lia).
    rewrite nth_take by lia. apply nth_indep.
    apply (seq_perm_in_range _ _ P). apply nth_In. lia.
  - rewrite map_nth_seq'. apply qprod_perm, Permutation_map, P.
Qed.

Lemma take_digits_valid dims ix p :
  valid_digits dims ix -> (forall i, In i p -> i < length dims) ->
  valid_digits (take 0 p dims) (take 0 p ix).
Proof.
  intros V H. unfold take. induction p as [|i p IH]; cbn; constructor.
  - apply valid_nth; auto. apply H. now left.
  - apply IH. intros; apply H; now right.
Qed.

Lemma dot_strides_undigits acc dims loc :
  length loc = length dims -> dot_strides acc dims loc = acc * undigits dims loc.
Proof.
  revert acc loc; induction dims as [|d dims IH]; intros acc [|l loc] H; cbn in H; try lia; cbn.
  - lia.
  - rewrite IH by lia. lia.
Qed.

Lemma take_take_inv {A} (d : A) p q l :
  Permutation p (seq 0 (length l)) -> length q = length l ->
  (forall k, k < length l -> nth (nth k q 0) p 0 = k) ->
  (forall k, k < length l -> nth k q 0 < length l) ->
  take d q (take d p l) = l.
Proof.
  intros P Lq H Hr. assert (Lp : length p = length l) by (rewrite (Permutation_length P), seq_length; auto).
  rewrite <- (map_nth_seq' l d) at 2. unfold take at 1.
  rewrite <- (map_nth_seq' q 0) at 1. rewrite map_map, Lq.
  apply map_ext_in. intros k Hk. apply in_seq in Hk.
  rewrite nth_take by (rewrite Lp; apply Hr; lia). rewrite H by lia. reflexivity.
Qed.

Lemma local_indices_digits dims g :
  Forall (fun r => 0 < r) dims -> local_indices dims g = digits dims g.
Proof.
  intros H; revert g; induction H as [|d dims H HF IH]; intros g; auto.
  cbn [local_indices digits]. rewrite IH. f_equal. f_equal.
  pose proof (Nat.div_mod g d ltac:(lia)).
  replace (g - g mod d) with (g / d * d) by lia. apply Nat.div_mul. lia.
Qed.

(** The permutation of control point ids belonging to a permutation of axes. *)
Section PermIds.
Variables (dims p : list nat).
Hypothesis Hpos : Forall (fun r => 0 < r) dims.
Hypothesis P : Permutation p (seq 0 (length dims)).
Let N := prodn dims.
Let dims' := take 0 p dims.
Definition perm_key g := dot_strides 1 dims' (take 0 p (digits dims g)).
Let keys := map perm_key (seq 0 N).

Lemma perm_dims' : prodn dims' = N.
Proof. apply prodn_perm. now apply take_perm. Qed.
Lemma perm_key_eq g : perm_key g = undigits dims' (take 0 p (digits dims g)).
Proof.
  unfold perm_key. rewrite dot_strides_undigits; [lia|]. unfold dims', take. now rewrite !map_length.
Qed.
Lemma perm_key_valid g : valid_digits dims' (take 0 p (digits dims g)).
Proof.
  apply take_digits_valid; [now apply digits_valid|]. apply seq_perm_in_range, P.
Qed.
Lemma perm_key_digits g : digits dims' (perm_key g) = take 0 p (digits dims g).
Proof. rewrite perm_key_eq. apply digits_undigits, perm_key_valid. Qed.
Lemma perm_key_lt g : perm_key g < N.
Proof. rewrite perm_key_eq, <- perm_dims'. apply undigits_lt, perm_key_valid. Qed.

Lemma take_inj (a b : list nat) :
  length a = length dims -> length b = length dims -> take 0 p a = take 0 p b -> a = b.
Proof.
  intros La Lb E. apply nth_ext with (d := 0) (d' := 0); [congruence|].
  intros k Hk. assert (In k p) by (eapply Permutation_in; [symmetry; exact P|]; apply in_seq; lia).
  destruct (In_nth _ _ 0 H) as (j & Hj & <-).
  rewrite <- !nth_take by auto. now rewrite E.
Qed.

Lemma perm_key_inj g h : g < N -> h < N -> perm_key g = perm_key h -> g = h.
Proof.
  intros Hg Hh E.
  assert (E2 : take 0 p (digits dims g) = take 0 p (digits dims h)) by (rewrite <- !perm_key_digits; congruence).
  apply take_inj in E2; try apply length_digits.
  rewrite <- (undigits_digits dims g Hg), <- (undigits_digits dims h Hh). congruence.
Qed.

Lemma perm_keys_perm : Permutation keys (seq 0 (length keys)).
Proof.
  unfold keys. rewrite map_length, seq_length.
  apply NoDup_Permutation_bis.
  - apply NoDup_map_inv_dom; [|apply seq_NoDup]. intros x y Hx Hy.
    apply in_seq in Hx, Hy. apply perm_key_inj; lia.
  - rewrite map_length, !seq_length. lia.
  - intros x Hx. apply in_map_iff in Hx. destruct Hx as (g & <- & _). apply in_seq.
    pose proof (perm_key_lt g). lia.
Qed.

Let ids := argsort keys.
Lemma perm_ids_perm : Permutation ids (seq 0 N).
Proof.
  unfold ids. rewrite argsort_perm. unfold keys. now rewrite map_length, seq_length.
Qed.
Lemma perm_ids_len : length ids = N.
Proof. rewrite (Permutation_length perm_ids_perm), seq_length. auto. Qed.
Lemma perm_ids_lt m : m < N -> nth m ids 0 < N.
Proof.
  intros H. apply (seq_perm_in_range N ids perm_ids_perm). apply nth_In. now rewrite perm_ids_len.
Qed.
Lemma perm_ids_key m : m < N -> perm_key (nth m ids 0) = m.
Proof.
  intros H. pose proof (argsort_inverse keys m perm_keys_perm) as G.
  unfold keys in G at 1. rewrite map_length, seq_length in G. specialize (G H). fold ids in G.
  unfold keys in G. rewrite (nth_indep _ 0 (perm_key 0)) in G.
  2:{ rewrite map_length, seq_length. now apply perm_ids_lt. }
  rewrite map_nth, seq_nth in G by now apply perm_ids_lt. exact G.
Qed.
Lemma perm_ids_of_key g : g < N -> nth (perm_key g) ids 0 = g.
Proof.
  intros H. apply perm_key_inj; auto.
  - apply perm_ids_lt, perm_key_lt.
  - apply perm_ids_key, perm_key_lt.
Qed.
Lemma perm_ids_digits m : m < N -> take 0 p (digits dims (nth m ids 0)) = digits dims' m.
Proof. intros H. rewrite <- perm_key_digits, perm_ids_key; auto. Qed.
End PermIds.

Lemma same_set_spec n perm :
  same_set n perm = true <->
  (forall z, In z perm -> (0 <= z < Z.of_nat n)%Z) /\ (forall i, i < n -> In (Z.of_nat i) perm).
Proof.
  unfold same_set. rewrite Bool.andb_true_iff, !forallb_forall. split; intros [A B]; split.
  - intros z Hz. specialize (A z Hz). apply andb_prop in A. destruct A.
    apply Z.leb_le in H. apply Z.ltb_lt in H0. lia.
  - intros i Hi. specialize (B i ltac:(apply in_seq; lia)). apply existsb_exists in B.
    destruct B as (z & Hz & E). apply Z.eqb_eq in E. now subst.
  - intros z Hz. specialize (A z Hz). apply andb_true_intro. split; [apply Z.leb_le|apply Z.ltb_lt]; lia.
  - intros i Hi. apply in_seq in Hi. apply existsb_exists. exists (Z.of_nat i). split; [apply B; lia|].
    apply Z.eqb_refl.
Qed.

Lemma same_set_perm n perm :
  same_set n perm = true -> length perm = n -> Permutation (map Z.to_nat perm) (seq 0 n).
Proof.
  intros H L. apply same_set_spec in H. destruct H as [A B]. symmetry.
  apply NoDup_Permutation_bis.
  - apply seq_NoDup.
  - rewrite map_length, seq_length. lia.
  - intros i Hi. apply in_seq in Hi. apply in_map_iff. exists (Z.of_nat i).
    split; [apply Nat2Z.id|apply B; lia].
Qed.

Lemma perm_same_set n (p : list nat) :
  Permutation p (seq 0 n) -> same_set n (map Z.of_nat p) = true.
Proof.
  intros P. apply same_set_spec. split.
  - intros z Hz. apply in_map_iff in Hz. destruct Hz as (i & <- & Hi).
    apply (seq_perm_in_range _ _ P) in Hi. lia.
  - intros i Hi. apply in_map. eapply Permutation_in; [symmetry; exact P|]. apply in_seq. lia.
Qed.

Lemma pick_take {A} (d : A) l ids :
  (forall i, In i ids -> i < length l) -> pick l ids = Some (take d ids l).
Proof.
  unfold pick, take. induction ids as [|i ids IH]; intros H; auto. cbn [map all_some].
  rewrite (nth_error_nth' l d) by (apply H; now left). rewrite IH; auto.
  intros; apply H; now right.
Qed.

(** The result in closed form. *)
Definition permute_closed (s : spline) (p : list nat) : spline :=
  let ids := argsort (map (perm_key (sp_res s) p) (seq 0 (prodn (sp_res s)))) in
  Spl (take (BezierAxis 0) p (sp_axes s)) (take [] ids (sp_cps s))
      (match sp_weights s with None => None | Some w => Some (take 0%Qc ids w) end).

Lemma sp_wf_len s : sp_wf s -> length (sp_cps s) = prodn (sp_res s) /\
  match sp_weights s with None => True | Some w => length w = prodn (sp_res s) end.
Proof.
  intros (_ & A & B). rewrite (fold_right_mul_prodn (sp_res s)) in *. split; auto.
Qed.

Lemma sp_res_len s : length (sp_res s) = length (sp_axes s).
Proof. unfold sp_res. apply map_length. Qed.

Lemma permute_eq s p :
  sp_wf s -> Permutation p (seq 0 (length (sp_axes s))) ->
  permute_parametric_axes s (map Z.of_nat p) = Some (permute_closed s p).
Proof.
  intros W P. pose proof (res_pos s W) as Hpos. destruct (sp_wf_len s W) as [Lc Lw].
  assert (P' : Permutation p (seq 0 (length (sp_res s)))) by now rewrite sp_res_len.
  unfold permute_parametric_axes. rewrite perm_same_set by auto. cbn [negb].
  rewrite map_length. rewrite (Permutation_length P), seq_length, Nat.eqb_refl. cbn [negb].
  assert (Ep : map Z.to_nat (map Z.of_nat p) = p).
  { rewrite map_map. rewrite <- (map_id p) at 2. apply map_ext. intros; apply Nat2Z.id. }
  rewrite Ep, Lc.
  pose proof (perm_ids_perm (sp_res s) p) as Pi.
  pose proof (seq_perm_in_range _ _ Pi) as Hr.
  unfold permute_closed.
  erewrite (map_ext _ (perm_key (sp_res s) p)).
  2:{ intros g. cbn beta zeta. rewrite local_indices_digits by auto. reflexivity. }
  rewrite (pick_take []) by (intros; rewrite Lc; auto).
  destruct (sp_weights s) as [w|]; auto.
  rewrite (pick_take 0%Qc) by (intros; rewrite Lw; auto). reflexivity.
Qed.

Lemma take_reindexed {A} (d : A) ids l :
  (forall i, In i ids -> i < length l) ->
  reindexed (length ids) (fun g => nth g ids 0) l (take d ids l).
Proof.
  intros H. split; [unfold take; now rewrite map_length|].
  intros g Hg. rewrite (nth_error_nth' _ d) by (unfold take; now rewrite map_length).
  rewrite nth_take by auto. symmetry. apply nth_error_nth'. apply H. now apply nth_In.
Qed.

Lemma sp_basis_take axes us p :
  length us = length axes -> Permutation p (seq 0 (length axes)) ->
  sp_basis (take (BezierAxis 0) p axes) (take 0%Qc p us) =
  take (ax_n (BezierAxis 0), fun _ => 1%Qc) p (sp_basis axes us).
Proof.
  intros L P. pose proof (seq_perm_in_range _ _ P) as Hr. clear P.
  unfold take. induction p as [|i p IH]; cbn [map]; auto.
  unfold sp_basis at 1. cbn [map combine]. fold (sp_basis (map (fun i => nth i axes (BezierAxis 0)) p)
    (map (fun i => nth i us 0%Qc) p)).
  rewrite IH by (intros; apply Hr; now right). f_equal.
  assert (Hi : i < length axes) by (apply Hr; now left).
  set (G := fun au : paxis * Qc => (ax_n (fst au), ax_fun (fst au) (snd au))).
  change (sp_basis axes us) with (map G (combine axes us)).
  rewrite (nth_indep _ _ (G (BezierAxis 0, 0%Qc)))
    by (rewrite map_length, combine_length; lia).
  rewrite map_nth, combine_nth by auto. reflexivity.
Qed.

Lemma permute_values s p :
  sp_wf s -> Permutation p (seq 0 (length (sp_axes s))) ->
  exists s', permute_parametric_axes s (map Z.of_nat p) = Some s' /\ sp_wf s' /\
    sp_axes s' = map (fun i => nth i (sp_axes s) (BezierAxis 0)) p /\
    forall us d, length us = length (sp_axes s) ->
      sp_value s' (map (fun i => nth i us 0%Qc) p) d = sp_value s us d.
Proof.
  intros W P. exists (permute_closed s p). split; [now apply permute_eq|].
  pose proof (res_pos s W) as Hpos. destruct (sp_wf_len s W) as [Lc Lw].
  assert (P' : Permutation p (seq 0 (length (sp_res s)))) by now rewrite sp_res_len.
  pose proof (perm_ids_perm (sp_res s) p) as Pi.
  pose proof (seq_perm_in_range _ _ Pi) as Hr.
  pose proof (Permutation_length Pi) as Li. rewrite seq_length in Li.
  set (ids := argsort (map (perm_key (sp_res s) p) (seq 0 (prodn (sp_res s))))) in *.
  assert (Eres : map ax_n (take (BezierAxis 0) p (sp_axes s)) = take 0 p (sp_res s)).
  { unfold take. rewrite map_map. apply map_ext_in. intros i Hi.
    unfold sp_res. rewrite (nth_indep _ 0 (ax_n (BezierAxis 0))).
    - now rewrite map_nth.
    - rewrite map_length. apply (seq_perm_in_range _ _ P i Hi). }
  assert (EN : prodn (take 0 p (sp_res s)) = prodn (sp_res s)) by (apply prodn_perm; now apply take_perm).
  split; [|split].
  - split; [|].
    + cbn [permute_closed sp_axes]. destruct W as [HF _].
      apply (Permutation_Forall (Permutation_sym (take_perm (BezierAxis 0) p (sp_axes s) P)) HF).
    + unfold sp_res at 1 2. cbn [permute_closed sp_axes sp_cps sp_weights]. rewrite Eres.
      rewrite (fold_right_mul_prodn (take 0 p (sp_res s))), EN. fold ids.
      split; [unfold take; rewrite map_length; auto|].
      destruct (sp_weights s); auto. unfold take. rewrite map_length. auto.
  - reflexivity.
  - intros us d L.
    apply (value_transfer s us (permute_closed s p) _ (fun g => nth g ids 0)).
    + cbn [permute_closed sp_axes]. unfold take. now rewrite !map_length.
    + unfold sp_res at 1. cbn [permute_closed sp_axes sp_cps]. rewrite Eres, EN. fold ids.
      rewrite <- Li. apply take_reindexed. intros; rewrite Lc; auto.
    + unfold sp_res at 1. cbn [permute_closed sp_axes sp_weights]. rewrite Eres, EN. fold ids.
      destruct (sp_weights s); auto. rewrite <- Li. apply take_reindexed. intros; rewrite Lw; auto.
    + intros f. cbn [permute_closed sp_axes].
      apply functional_reindex; auto.
      * unfold take. now rewrite !map_length.
      * rewrite Eres. exact EN.
      * intros g Hg. rewrite Eres.
        fold (take 0%Qc p us). rewrite sp_basis_take by auto.
        change (map ax_n (sp_axes s)) with (sp_res s).
        rewrite <- (perm_ids_digits (sp_res s) p Hpos P' g Hg). fold ids.
        apply weight_take.
        -- rewrite length_digits, sp_res_len, sp_basis_length; auto.
        -- rewrite sp_basis_length; auto.
Qed.

(** Inverse permutation. *)
Lemma permute_back s p q :
  sp_wf s -> Permutation p (seq 0 (length (sp_axes s))) ->
  length q = length (sp_axes s) -> (forall k, k < length (sp_axes s) -> nth (nth k q 0) p 0 = k) ->
  (forall k, k < length (sp_axes s) -> nth k q 0 < length (sp_axes s)) ->
  exists s', permute_parametric_axes s (map Z.of_nat p) = Some s' /\
             permute_parametric_axes s' (map Z.of_nat q) = Some s.
Proof.
  intros W P Lq Hq Hqr. set (n := length (sp_axes s)) in *.
  assert (Lp : length p = n) by (rewrite (Permutation_length P), seq_length; auto).
  assert (Q : Permutation q (seq 0 n)).
  { apply NoDup_Permutation_bis.
    - apply (NoDup_nth q 0). intros i j Hi Hj E. rewrite Lq in *.
      rewrite <- (Hq i Hi), <- (Hq j Hj). now rewrite E.
    - rewrite seq_length. lia.
    - intros x Hx. destruct (In_nth _ _ 0 Hx) as (k & Hk & <-). apply in_seq. rewrite Lq in Hk.
      specialize (Hqr k Hk). lia. }
  exists (permute_closed s p). split; [now apply permute_eq|].
  destruct (permute_values s p W P) as (s' & E1 & W' & Eax & _).
  rewrite permute_eq in E1 by auto. injection E1 as <-.
  assert (Ln' : length (sp_axes (permute_closed s p)) = n).
  { rewrite Eax, map_length. exact Lp. }
  rewrite permute_eq; auto; [|now rewrite Ln'].
  f_equal. pose proof (res_pos s W) as Hpos. destruct (sp_wf_len s W) as [Lc Lw].
  assert (P' : Permutation p (seq 0 (length (sp_res s)))) by now rewrite sp_res_len.
  assert (Eres : sp_res (permute_closed s p) = take 0 p (sp_res s)).
  { unfold sp_res at 1. rewrite Eax. unfold take. rewrite map_map. apply map_ext_in. intros i Hi.
    unfold sp_res. rewrite (nth_indep _ 0 (ax_n (BezierAxis 0))).
    - now rewrite map_nth.
    - rewrite map_length. apply (seq_perm_in_range _ _ P i Hi). }
  assert (Epq : forall A (d : A) l, length l = n -> take d q (take d p l) = l).
  { intros A d l Hl. apply take_take_inv; rewrite ?Hl; auto. }
  set (N := prodn (sp_res s)) in *.
  assert (EN : prodn (take 0 p (sp_res s)) = N) by (apply prodn_perm; now apply take_perm).
  set (ids := argsort (map (perm_key (sp_res s) p) (seq 0 N))) in *.
  assert (Hpos' : Forall (fun r => 0 < r) (take 0 p (sp_res s))).
  { rewrite <- Eres. now apply res_pos. }
  assert (Q' : Permutation q (seq 0 (length (take 0 p (sp_res s))))).
  { unfold take. rewrite map_length, Lp. exact Q. }
  set (ids2 := argsort (map (perm_key (take 0 p (sp_res s)) q) (seq 0 N))).
  (* ids2 maps g to key g *)
  assert (Hids2 : forall g, g < N -> nth g ids2 0 = perm_key (sp_res s) p g).
  { intros g Hg. set (m := nth g ids2 0).
    assert (Hm : m < N) by (rewrite <- EN; unfold m, ids2; rewrite <- EN at 1; apply perm_ids_lt; auto; now rewrite EN).
    assert (D : take 0 q (digits (take 0 p (sp_res s)) m) = digits (sp_res s) g).
    { unfold m, ids2. rewrite <- EN at 1. rewrite perm_ids_digits; auto; [|now rewrite EN].
      f_equal. apply Epq. apply sp_res_len. }
    rewrite perm_key_eq by auto.
    rewrite <- D.
    rewrite <- (undigits_digits (take 0 p (sp_res s)) m) at 1 by (now rewrite EN).
    f_equal. symmetry.
    (* take p (take q x) = x *)
    apply take_take_inv.
    - rewrite length_digits. unfold take. rewrite map_length, Lp. exact Q.
    - rewrite length_digits. unfold take. now rewrite map_length.
    - rewrite length_digits. unfold take. rewrite map_length, Lp. intros k Hk.
      assert (Hkp : nth k p 0 < n) by (apply (seq_perm_in_range _ _ P); apply nth_In; lia).
      pose proof (Hq _ Hkp) as G.
      (* p injective *)
      assert (ND : NoDup p) by (eapply Permutation_NoDup; [symmetry; exact P|apply seq_NoDup]).
      apply (proj1 (NoDup_nth p 0) ND); try lia; auto.
      rewrite Lp. now apply Hqr.
    - rewrite length_digits. unfold take. rewrite map_length, Lp. intros k Hk.
      apply (seq_perm_in_range _ _ P); apply nth_In; lia. }
  assert (Lids : length ids = N) by (unfold ids; now apply perm_ids_len).
  assert (Lids2 : length ids2 = N) by (unfold ids2; rewrite <- EN; now apply perm_ids_len).
  assert (Hrow : forall A (d : A) l, length l = N -> take d ids2 (take d ids l) = l).
  { intros A d l Hl. apply take_take_inv; rewrite ?Hl; auto.
    - unfold ids. apply perm_ids_perm.
    - intros k Hk. rewrite Hids2 by auto. unfold ids. now apply perm_ids_of_key.
    - intros k Hk. rewrite Hids2 by auto. now apply perm_key_lt. }
  unfold permute_closed at 1. rewrite Eres, EN. fold ids2.
  cbn [permute_closed sp_axes sp_cps sp_weights]. fold N ids.
  rewrite Epq, Hrow by auto. destruct s as [axes cps w]. cbn [sp_axes sp_cps sp_weights] in *.
  f_equal. destruct w as [w|]; auto. now rewrite Hrow.
Qed.

Lemma permute_rejects s perm :
  ~ Permutation perm (map Z.of_nat (seq 0 (length (sp_axes s)))) ->
  permute_parametric_axes s perm = None.
Proof.
  intros H. unfold permute_parametric_axes.
  destruct (same_set (length (sp_axes s)) perm) eqn:E; auto. cbn [negb].
  destruct (Nat.eqb_spec (length perm) (length (sp_axes s))) as [L|]; auto. exfalso. apply H.
  pose proof (same_set_perm _ _ E L) as P. apply (Permutation_map Z.of_nat) in P.
  rewrite <- P. rewrite map_map. apply same_set_spec in E. destruct E as [A _].
  assert (Hm : map (fun x => Z.of_nat (Z.to_nat x)) perm = perm).
  { rewrite <- (map_id perm) at 2. apply map_ext_in. intros z Hz. apply A in Hz. lia. }
  now rewrite Hm.
Qed.

(** Flipping. *)
Fixpoint flip_by (flags : list bool) (axes : list paxis) : list paxis :=
  match flags, axes with
  | f :: flags, a :: axes => (if f then flip_axis a else a) :: flip_by flags axes
  | _, _ => axes
  end.
Fixpoint mirror (flags : list bool) (res ix : list nat) : list nat :=
  match flags, res, ix with
  | f :: flags, r :: res, i :: ix => (if f : bool then r - 1 - i else i) :: mirror flags res ix
  | _, _, _ => ix
  end.
Fixpoint flip_us (flags : list bool) (axes : list paxis) (us : list Qc) : list Qc :=
  match flags, axes, us with
  | f :: flags, a :: axes, u :: us =>
      (if f : bool then (ax_lower a + ax_upper a - u)%Qc else u) :: flip_us flags axes us
  | _, _, _ => us
  end.

Lemma rev_nth_map {A} (f : A -> Qc) (l : list A) k d0 d :
  k < length l -> nth k (map f (rev l)) d0 = f (nth (length l - 1 - k) l d).
Proof.
  intros H. rewrite (nth_indep _ d0 (f d)) by (rewrite map_length, rev_length; auto).
  rewrite map_nth, rev_nth by auto. f_equal. f_equal. lia.
Qed.

Section Flip1.
Variables (p : nat) (kv : list Qc).
Let a := KnotAxis p kv.
Let n := ax_n a.
Hypothesis W : ax_wf a.
Let c := (ax_lower a + ax_upper a)%Qc.
Let kv' := map (fun x => (c - x)%Qc) (rev kv).
Let m := length kv - 1.

Lemma flip1_len : length kv = n + p + 1 /\ p < n /\ m = n + p.
Proof.
  pose proof (ax_n_degree a W) as H. cbn [ax_degree a] in H. fold n in H.
  destruct W as (L & _). cbn [ax_wf ax_n a] in *. unfold n, m in *. cbn [ax_n a] in *. lia.
Qed.
Lemma flip1_len' : length kv' = length kv.
Proof. unfold kv'. now rewrite map_length, rev_length. Qed.
Lemma flip1_n : ax_n (KnotAxis p kv') = n.
Proof. unfold n. cbn [ax_n a]. now rewrite flip1_len'. Qed.
Lemma flip1_kn k : k <= m -> kn kv' k = (c - kn kv (m - k))%Qc.
Proof.
  pose proof flip1_len. intros H0. rewrite (kn_nth kv' k 0%Qc) by (rewrite flip1_len'; lia).
  rewrite (kn_nth kv _ 0%Qc) by lia. unfold kv'. rewrite rev_nth_map with (d := 0%Qc) by lia.
  reflexivity.
Qed.
Lemma flip1_lower : ax_lower (KnotAxis p kv') = ax_lower a.
Proof.
  pose proof flip1_len. cbn [ax_lower a]. rewrite flip1_kn by lia.
  unfold c. cbn [ax_lower ax_upper a]. replace (m - p) with n by lia. fold a n. ring.
Qed.
Lemma flip1_upper : ax_upper (KnotAxis p kv') = ax_upper a.
Proof.
  pose proof flip1_len. cbn [ax_upper]. rewrite flip1_n, flip1_kn by lia.
  unfold c. cbn [ax_lower ax_upper a]. replace (m - n) with p by lia. fold a n. ring.
Qed.
Lemma flip1_wf : ax_wf (KnotAxis p kv').
Proof.
  pose proof flip1_len as (L & Hpn & Hm). destruct W as (_ & ND & D).
  unfold ax_wf. rewrite flip1_n. split; [|split].
  - rewrite flip1_len'. auto.
  - intros i j Hij Hj. rewrite flip1_len' in Hj.
    unfold kv'. rewrite !rev_nth_map with (d := 0%Qc) by lia.
    pose proof (ND (length kv - 1 - j) (length kv - 1 - i) ltac:(lia) ltac:(lia)). qlra.
  - rewrite !flip1_kn by lia. replace (m - p) with n by lia. replace (m - n) with p by lia.
    fold a n in D. qlra.
Qed.

Lemma flip1_fun u i :
  ax_domain a u -> ax_continuous_at a (c - u)%Qc -> i < n ->
  ax_fun (KnotAxis p kv') u i = ax_fun a (c - u)%Qc (n - 1 - i).
Proof.
  intros D C Hi. pose proof flip1_len as (L & Hpn & Hm).
  assert (D2 : in_domain p n kv (c - u)%Qc).
  { destruct D as [D1 D2]. unfold c. cbn [ax_lower ax_upper a] in D1, D2 |- *. fold a n in D1, D2 |- *. split; qlra. }
  assert (D3 : in_domain p n kv' u).
  { split.
    - pose proof flip1_lower as E. cbn [ax_lower] in E. rewrite E. apply D.
    - pose proof flip1_upper as E. cbn [ax_upper] in E. rewrite flip1_n in E. rewrite E. apply D. }
  pose proof flip1_wf as W'. unfold ax_wf in W'. rewrite flip1_n in W'.
  destruct W as (KL & KM & KD). fold n in KL, KD.
  assert (K : knot_vector p n kv) by (split; auto).
  unfold ax_fun at 1. rewrite flip1_n. unfold ax_fun, a. fold a n.
  unfold bspline_basis.
  set (s := find_span kv p n (c - u)). set (s' := find_span kv' p n u).
  destruct (find_span_spec kv p n _ K D2) as (A1 & A2 & A3 & A4 & A5). fold s in A1, A2, A3, A4, A5.
  destruct (find_span_spec kv' p n _ W' D3) as (B1 & B2 & B3 & B4 & B5). fold s' in B1, B2, B3, B4, B5.
  rewrite <- (basis_reverse (kn kv) (kn kv') c m s p (n - 1 - i) (c - u)%Qc) by
    (try (intros; now apply flip1_kn); lia).
  replace (m - 1 - p - (n - 1 - i)) with i by lia.
  replace (c - (c - u))%Qc with u by ring.
  set (t := m - 1 - s).
  assert (Mv : mono (kn kv')) by (apply kn_mono, W').
  assert (Mu : mono (kn kv)) by (apply kn_mono, K).
  assert (T1 : (kn kv' t = c - kn kv (S s))%Qc).
  { rewrite flip1_kn by (unfold t; lia). replace (m - t) with (S s) by (unfold t; lia). auto. }
  assert (T2 : (kn kv' (S t) = c - kn kv s)%Qc).
  { rewrite flip1_kn by (unfold t; lia). replace (m - S t) with s by (unfold t; lia). auto. }
  assert (T3 : (kn kv' t < kn kv' (S t))%Qc) by (rewrite T1, T2; qlra).
  assert (T4 : (kn kv' t <= u)%Qc) by (rewrite T1; destruct A5 as [A5|[A5 _]]; [|rewrite <- A5]; qlra).
  assert (T5 : (u <= kn kv' (S t))%Qc) by (rewrite T2; qlra).
  rewrite !basis_blossom.
  destruct (lt_dec s' t) as [Hlt|Hge].
  { (* the span chosen for the flipped axis cannot lie before *)
    exfalso. pose proof (Mv (S s') t Hlt) as E.
    destruct B5 as [B5|[B5 B6]]; [qlra|].
    assert (S t <= n) by (unfold t; lia).
    pose proof (Mv (S t) n H). rewrite B6 in *. qlra. }
  destruct (Nat.eq_dec s' t) as [->|Hne]; auto. symmetry.
  assert (Hs' : t < s') by lia.
  assert (Eu : u = kn kv' s').
  { apply Qcle_antisym; auto. pose proof (Mv (S t) s' Hs'). qlra. }
  assert (Et : kn kv' (S t) = u).
  { apply Qcle_antisym; auto. rewrite Eu. apply Mv. lia. }
  assert (Hall : forall k, t < k -> k <= s' -> kn kv' k = u).
  { intros k H1 H2. apply Qcle_antisym.
    - rewrite Eu. apply Mv. lia.
    - rewrite <- Et. apply Mv. lia. }
  assert (Hcount : s' - t <= p).
  { destruct (le_lt_dec (s' - t) p); auto. exfalso.
    assert (Q1 : (kn kv (m - s') = c - u)%Qc).
    { pose proof (flip1_kn s' ltac:(lia)) as E. rewrite <- Eu in E. rewrite E. ring. }
    assert (Q2 : (ax_lower a < c - u)%Qc).
    { cbn [ax_lower a]. assert (E : (u < kn kv' n)%Qc).
      { pose proof (Mv (S s') n ltac:(lia)). rewrite Eu. qlra. }
      rewrite flip1_kn in E by lia. replace (m - n) with p in E by lia. qlra. }
    assert (Q3 : (c - u < ax_upper a)%Qc).
    { cbn [ax_upper a]. fold a n. assert (E : (kn kv' p < u)%Qc).
      { assert (p <= t) by (unfold t; lia). pose proof (Mv p t H). rewrite <- Et. qlra. }
      rewrite flip1_kn in E by lia. replace (m - p) with n in E by lia. qlra. }
    pose proof (C (m - s') Q1 Q2 Q3) as Q4.
    assert (Q5 : kn kv (m - s' + p) = (c - u)%Qc).
    { pose proof (flip1_kn (s' - p) ltac:(lia)) as E. rewrite Hall in E by lia.
      replace (m - (s' - p)) with (m - s' + p) in E by lia. rewrite E. ring. }
    rewrite Q5 in Q4. qlra. }
  apply blossom_change_span with (t := u) (rest := repeat u (p - (s' - t))); auto; try lia.
  rewrite <- repeat_app. now replace (s' - t + (p - (s' - t))) with p by lia.
Qed.
End Flip1.

Lemma binom_sym_add a b : binom (a + b) a = binom (a + b) b.
Proof.
  remember (a + b) as n eqn:E. revert a b E; induction n as [|n IH]; intros [|a] [|b] E; try lia; auto.
  - cbn [binom]. replace (S b) with (S n) by lia. replace b with n by lia.
    rewrite binom_diag, (binom_gt n (S n)) by lia. reflexivity.
  - cbn [binom]. replace a with n by lia.
    rewrite binom_diag, (binom_gt n (S n)) by lia. reflexivity.
  - cbn [binom]. rewrite (IH a (S b)), (IH (S a) b) by lia. lia.
Qed.
Lemma bernstein_sym p i u : i <= p -> bernstein p i u = bernstein p (p - i) (1 - u)%Qc.
Proof.
  intros H. unfold bernstein. replace (p - (p - i)) with i by lia.
  replace (1 - (1 - u))%Qc with u by ring.
  replace (binom p (p - i)) with (binom p i); [ring|].
  pose proof (binom_sym_add i (p - i)) as E. replace (i + (p - i)) with p in E by lia. exact E.
Qed.

Lemma flip_axis_n a : ax_wf a -> ax_n (flip_axis a) = ax_n a.
Proof. destruct a; intros W; auto. cbn [flip_axis]. now apply flip1_n. Qed.
Lemma flip_axis_lower a : ax_wf a -> ax_lower (flip_axis a) = ax_lower a.
Proof. destruct a; intros W; auto. cbn [flip_axis]. now apply flip1_lower. Qed.
Lemma flip_axis_upper a : ax_wf a -> ax_upper (flip_axis a) = ax_upper a.
Proof. destruct a; intros W; auto. cbn [flip_axis]. now apply flip1_upper. Qed.
Lemma flip_axis_wf a : ax_wf a -> ax_wf (flip_axis a).
Proof. destruct a; intros W; auto. cbn [flip_axis]. now apply flip1_wf. Qed.
Lemma flip_axis_fun a u i :
  ax_wf a -> ax_domain a u -> ax_continuous_at a (ax_lower a + ax_upper a - u)%Qc -> i < ax_n a ->
  ax_fun (flip_axis a) u i = ax_fun a (ax_lower a + ax_upper a - u)%Qc (ax_n a - 1 - i).
Proof.
  destruct a as [p|p kv]; intros W D C Hi.
  - cbn [flip_axis ax_fun ax_lower ax_upper ax_n] in *. rewrite bernstein_sym by lia.
    replace (p + 1 - 1 - i) with (p - i) by lia. f_equal.
  - now apply flip1_fun.
Qed.
Lemma flip_axis_twice a : ax_wf a -> flip_axis (flip_axis a) = a.
Proof.
  intros W. destruct a as [p|p kv]; auto.
  pose proof (flip_axis_lower _ W) as E1. pose proof (flip_axis_upper _ W) as E2.
  cbn [flip_axis] in *. rewrite E1, E2. f_equal.
  rewrite <- map_rev, rev_involutive, map_map. rewrite <- (map_id kv) at 2. apply map_ext.
  intros x. ring.
Qed.

Lemma flip_by_length flags axes : length (flip_by flags axes) = length axes.
Proof. revert axes; induction flags; intros [|x axes]; cbn; auto. Qed.
Lemma flip_by_res flags axes : Forall ax_wf axes -> map ax_n (flip_by flags axes) = map ax_n axes.
Proof.
  intros W; revert flags; induction W as [|a axes Wa W IH]; intros [|[] flags]; cbn; auto.
  - rewrite IH. f_equal. now apply flip_axis_n.
  - now rewrite IH.
Qed.
Lemma flip_by_wf flags axes : Forall ax_wf axes -> Forall ax_wf (flip_by flags axes).
Proof.
  intros W; revert flags; induction W as [|a axes Wa W IH]; intros [|[] flags]; cbn; auto.
  constructor; auto. now apply flip_axis_wf.
Qed.
Lemma flip_by_twice flags axes : Forall ax_wf axes -> flip_by flags (flip_by flags axes) = axes.
Proof.
  intros W; revert flags; induction W as [|a axes Wa W IH]; intros [|[] flags]; cbn; auto.
  - rewrite flip_axis_twice, IH; auto.
  - now rewrite IH.
Qed.
Lemma flip_us_length flags axes us : length (flip_us flags axes us) = length us.
Proof. revert axes us; induction flags; intros [|x axes] [|u us]; cbn; auto. Qed.
Lemma mirror_valid flags res ix : valid_digits res ix -> valid_digits res (mirror flags res ix).
Proof.
  intros V; revert flags; induction V as [|r i res ix H V IH]; intros [|[] flags]; cbn; try constructor; auto; try lia; apply IH.
Qed.
Lemma mirror_twice flags res ix : valid_digits res ix -> mirror flags res (mirror flags res ix) = ix.
Proof.
  intros V; revert flags; induction V as [|r i res ix H V IH]; intros [|[] flags]; cbn; auto.
  - rewrite IH. f_equal. lia.
  - now rewrite IH.
Qed.

Lemma flip_weights flags axes us ix :
  Forall ax_wf axes -> Forall2 ax_domain axes us ->
  Forall2 (fun fa u => fst fa = true -> ax_continuous_at (snd fa) u) (combine flags axes)
          (flip_us flags axes us) ->
  valid_digits (map ax_n axes) ix ->
  weight (sp_basis (flip_by flags axes) us) ix =
  weight (sp_basis axes (flip_us flags axes us)) (mirror flags (map ax_n axes) ix).
Proof.
  intros W D; revert flags ix; induction D as [|a u axes us Da D IH]; intros [|f flags] ix C V; auto.
  inversion W as [|? ? Wa W']; subst. cbn [flip_us combine] in C. inversion C as [|? ? ? ? Ca C']; subst.
  cbn [map] in V. inversion V as [|r i res ix' Hi V']; subst.
  cbn [flip_by flip_us mirror sp_basis combine map weight fst snd].
  change (map (fun au : paxis * Qc => (ax_n (fst au), ax_fun (fst au) (snd au)))
            (combine (flip_by flags axes) us)) with (sp_basis (flip_by flags axes) us).
  change (map (fun au : paxis * Qc => (ax_n (fst au), ax_fun (fst au) (snd au)))
            (combine axes (flip_us flags axes us))) with (sp_basis axes (flip_us flags axes us)).
  rewrite IH by auto. f_equal.
  destruct f; auto. apply flip_axis_fun; auto.
Qed.

(** The subscript with reversed slices. *)
Lemma positions_all r : slice_positions r None None None = Some (seq 0 r).
Proof.
  unfold slice_positions. cbn [Z.eqb Z.ltb Z.compare]. f_equal.
  replace (Z.to_nat ((Z.of_nat r - 0 + 1 - 1) / 1)) with r by (rewrite Z.div_1_r; lia).
  rewrite <- (map_id (seq 0 r)) at 2. apply map_ext. intros; lia.
Qed.
Lemma positions_rev r :
  slice_positions r None None (Some (-1)%Z) = Some (map (fun k => r - 1 - k) (seq 0 r)).
Proof.
  unfold slice_positions. cbn [Z.eqb Z.ltb Z.compare Z.opp]. f_equal.
  replace (Z.to_nat ((Z.of_nat r - 1 - -1 - -1 - 1) / 1)) with r by (rewrite Z.div_1_r; lia).
  apply map_ext. intros; lia.
Qed.
Definition flip_positions (flags : list bool) (res : list nat) : list (list nat) :=
  map (fun fr : bool * nat => if fst fr then map (fun k => snd fr - 1 - k) (seq 0 (snd fr)) else seq 0 (snd fr))
      (combine flags res).
Definition flip_index (b : bool) : index :=
  if b then ISlice None None (Some (-1)%Z) else ISlice None None None.
Lemma flip_resolve flags res :
  length flags = length res -> resolve res (map flip_index flags) = Some (flip_positions flags res).
Proof.
  revert res; induction flags as [|f flags IH]; intros [|r res] L; cbn in L; try lia; auto.
  cbn [map resolve]. rewrite IH by lia. unfold flip_positions. cbn [combine map fst snd].
  destruct f; cbn [flip_index index_positions]; [rewrite positions_rev|rewrite positions_all]; reflexivity.
Qed.
Lemma flip_positions_len flags res :
  length flags = length res -> map (@length nat) (flip_positions flags res) = res.
Proof.
  revert res; induction flags as [|f flags IH]; intros [|r res] L; cbn in L; try lia; auto.
  unfold flip_positions. cbn [combine map fst snd]. f_equal.
  - destruct f; rewrite ?map_length, seq_length; auto.
  - apply IH. lia.
Qed.
Lemma flip_select flags res ix :
  length flags = length res -> valid_digits res ix ->
  select 0 (flip_positions flags res) ix = mirror flags res ix.
Proof.
  intros L V; revert flags L; induction V as [|r i res ix H V IH]; intros [|f flags] L; cbn in L; try lia; auto.
  unfold select, flip_positions in *. cbn [combine map fst snd mirror]. f_equal.
  - destruct f; [|now rewrite seq_nth].
    rewrite (nth_indep _ 0 (r - 1 - 0)) by (rewrite map_length, seq_length; auto).
    rewrite (map_nth (fun k => r - 1 - k)), seq_nth by auto. lia.
  - apply IH. lia.
Qed.

Definition flip_ids (flags : list bool) (res : list nat) : list nat :=
  map (fun g => undigits res (mirror flags res (digits res g))) (seq 0 (prodn res)).
Lemma flip_getitem flags res :
  length flags = length res -> Forall (fun r => 0 < r) res ->
  multi_index_getitem res (map flip_index flags) = Some (flip_ids flags res).
Proof.
  intros L Hp. rewrite multi_index_spec, flip_resolve, flip_positions_len by auto. f_equal.
  unfold f_indices, flip_ids. rewrite map_map. apply map_ext. intros g.
  rewrite flip_select by (auto using digits_valid).
  apply flat_id_undigits. now rewrite (valid_length _ _ (mirror_valid _ _ _ (digits_valid res g Hp))).
Qed.

Section FlipIds.
Variables (flags : list bool) (res : list nat).
Hypothesis Hp : Forall (fun r => 0 < r) res.
Let N := prodn res.
Let ids := flip_ids flags res.
Lemma flip_ids_len : length ids = N.
Proof. unfold ids, flip_ids. now rewrite map_length, seq_length. Qed.
Lemma flip_ids_nth g : g < N -> nth g ids 0 = undigits res (mirror flags res (digits res g)).
Proof.
  intros H. unfold ids, flip_ids.
  set (F := fun g => undigits res (mirror flags res (digits res g))).
  rewrite (nth_indep _ 0 (F 0)) by (rewrite map_length, seq_length; auto).
  rewrite map_nth, seq_nth by auto. reflexivity.
Qed.
Lemma flip_ids_lt g : g < N -> nth g ids 0 < N.
Proof.
  intros H. rewrite flip_ids_nth by auto. apply undigits_lt, mirror_valid, digits_valid, Hp.
Qed.
Lemma flip_ids_digits g : g < N -> digits res (nth g ids 0) = mirror flags res (digits res g).
Proof.
  intros H. rewrite flip_ids_nth by auto. apply digits_undigits, mirror_valid, digits_valid, Hp.
Qed.
Lemma flip_ids_twice g : g < N -> nth (nth g ids 0) ids 0 = g.
Proof.
  intros H. rewrite flip_ids_nth, flip_ids_digits by auto using flip_ids_lt.
  rewrite mirror_twice by (apply digits_valid, Hp). now apply undigits_digits.
Qed.
Lemma flip_ids_perm : Permutation ids (seq 0 N).
Proof.
  symmetry. apply NoDup_Permutation_bis; [apply seq_NoDup| |].
  - rewrite flip_ids_len, seq_length. lia.
  - intros x Hx. apply in_seq in Hx. rewrite <- (flip_ids_twice x) by lia. apply nth_In.
    rewrite flip_ids_len. apply flip_ids_lt. lia.
Qed.
End FlipIds.

(** The loop over the requested axes. *)
Lemma flip_by_set flags axes k :
  length flags = length axes -> k < length axes -> nth k flags true = false ->
  set_nth (flip_by flags axes) k (flip_axis (nth k (flip_by flags axes) (BezierAxis 0))) =
  flip_by (set_nth flags k true) axes.
Proof.
  revert axes k; induction flags as [|f flags IH]; intros [|a axes] [|k] L H E; cbn in L, H; try lia.
  - cbn in E. subst f. reflexivity.
  - change (set_nth (f :: flags) (S k) true) with (f :: set_nth flags k true).
    cbn [flip_by nth]. rewrite <- (IH axes k) by (auto; lia). reflexivity.
Qed.

Lemma py_index_names n z k : names_axis n z k -> py_index n z = Some k.
Proof.
  intros [H [E|E]]; subst; unfold py_index.
  - destruct (Z.ltb_spec (Z.of_nat k) 0); [lia|].
    destruct (Z.leb_spec 0 (Z.of_nat k)), (Z.ltb_spec (Z.of_nat k) (Z.of_nat n)); try lia. cbn. f_equal. lia.
  - destruct (Z.ltb_spec (Z.of_nat k - Z.of_nat n) 0); [|lia].
    destruct (Z.leb_spec 0 (Z.of_nat k - Z.of_nat n + Z.of_nat n)),
      (Z.ltb_spec (Z.of_nat k - Z.of_nat n + Z.of_nat n) (Z.of_nat n)); try lia. cbn. f_equal. lia.
Qed.
Lemma py_index_none n z : (z < - Z.of_nat n \/ Z.of_nat n <= z)%Z -> py_index n z = None.
Proof.
  intros H. unfold py_index. destruct (Z.ltb_spec z 0).
  - destruct (Z.leb_spec 0 (z + Z.of_nat n)); auto. lia.
  - destruct (Z.leb_spec 0 z), (Z.ltb_spec z (Z.of_nat n)); auto; lia.
Qed.

Definition memb (k : nat) (ks : list nat) : bool := existsb (Nat.eqb k) ks.

Lemma flip_loop_spec zs ks axes flags :
  length flags = length axes -> Forall2 (names_axis (length axes)) zs ks ->
  NoDup ks -> (forall k, In k ks -> nth k flags true = false) ->
  exists flags', flip_loop zs (flip_by flags axes) flags = Some (flip_by flags' axes, flags') /\
    length flags' = length axes /\
    forall k, k < length axes -> nth k flags' false = (nth k flags false || memb k ks)%bool.
Proof.
  intros L H; revert flags L; induction H as [|z k zs ks Hz H IH]; intros flags L ND Hf.
  - exists flags. cbn. repeat split; auto. intros. now rewrite Bool.orb_false_r.
  - inversion ND as [|? ? Hk ND']; subst. cbn [flip_loop].
    rewrite flip_by_length, (py_index_names _ _ _ Hz). destruct Hz as [Hz _].
    rewrite flip_by_set by (auto; apply Hf; now left).
    destruct (IH (set_nth flags k true)) as (fl' & E & L' & Hn); auto.
    + now rewrite set_nth_length.
    + intros j Hj. rewrite set_nth_nth by lia. destruct (Nat.eqb_spec j k) as [->|]; [easy|].
      apply Hf. now right.
    + exists fl'. repeat split; auto. intros j Hj. rewrite Hn by auto.
      rewrite set_nth_nth by lia. cbn [memb existsb].
      destruct (Nat.eqb_spec j k); cbn; auto. now destruct (nth j flags false).
Qed.

Definition flip_flags (n : nat) (ks : list nat) : list bool := map (fun k => memb k ks) (seq 0 n).
Lemma flip_flags_len n ks : length (flip_flags n ks) = n.
Proof. unfold flip_flags. now rewrite map_length, seq_length. Qed.
Lemma flip_flags_nth n ks k d : k < n -> nth k (flip_flags n ks) d = memb k ks.
Proof.
  intros H. unfold flip_flags.
  rewrite (nth_indep _ d (memb 0 ks)) by (rewrite map_length, seq_length; auto).
  rewrite (map_nth (fun k => memb k ks)), seq_nth by auto. reflexivity.
Qed.
Lemma flip_by_false n axes : flip_by (repeat false n) axes = axes.
Proof. revert axes; induction n; intros [|a axes]; cbn; auto. now rewrite IHn. Qed.

Lemma flip_loop_closed zs ks axes :
  Forall2 (names_axis (length axes)) zs ks -> NoDup ks ->
  flip_loop zs axes (repeat false (length axes)) =
  Some (flip_by (flip_flags (length axes) ks) axes, flip_flags (length axes) ks).
Proof.
  intros H ND.
  destruct (flip_loop_spec zs ks axes (repeat false (length axes))) as (fl & E & L & Hn); auto.
  - apply repeat_length.
  - intros k Hk. rewrite (nth_indep _ true false); [apply nth_repeat|].
    rewrite repeat_length. clear -H Hk. induction H; [easy|]. destruct Hk as [<-|]; auto. apply H.
  - rewrite flip_by_false in E. rewrite E.
    assert (fl = flip_flags (length axes) ks) as ->; auto.
    apply nth_ext with (d := false) (d' := false); [now rewrite flip_flags_len|].
    intros k Hk. rewrite Hn, flip_flags_nth, nth_repeat by lia. reflexivity.
Qed.

(** Closed form. *)
Definition flip_closed (s : spline) (flags : list bool) : spline :=
  let ids := flip_ids flags (sp_res s) in
  Spl (flip_by flags (sp_axes s)) (take [] ids (sp_cps s))
      (match sp_weights s with None => None | Some w => Some (take 0%Qc ids w) end).

Lemma flip_eq s zs ks :
  sp_wf s -> Forall2 (names_axis (length (sp_axes s))) zs ks -> NoDup ks ->
  flip_axes s zs = Some (flip_closed s (flip_flags (length (sp_axes s)) ks)).
Proof.
  intros W H ND. unfold flip_axes. rewrite (flip_loop_closed zs ks) by auto.
  set (flags := flip_flags (length (sp_axes s)) ks).
  change (fun b : bool => if b then ISlice None None (Some (-1)%Z) else ISlice None None None) with flip_index.
  assert (Lf : length flags = length (sp_res s)) by (unfold flags; rewrite flip_flags_len, sp_res_len; auto).
  pose proof (res_pos s W) as Hpos. destruct (sp_wf_len s W) as [Lc Lw].
  rewrite flip_getitem by auto.
  assert (Hr : forall i, In i (flip_ids flags (sp_res s)) -> i < prodn (sp_res s)).
  { apply seq_perm_in_range. now apply flip_ids_perm. }
  unfold flip_closed. rewrite (pick_take []) by (intros; rewrite Lc; auto).
  destruct (sp_weights s) as [w|]; auto. rewrite (pick_take 0%Qc) by (intros; rewrite Lw; auto). reflexivity.
Qed.

Lemma flip_closed_res s flags : sp_wf s -> sp_res (flip_closed s flags) = sp_res s.
Proof. intros (W & _). unfold sp_res, flip_closed. cbn [sp_axes]. now apply flip_by_res. Qed.

Lemma flip_closed_wf s flags : sp_wf s -> sp_wf (flip_closed s flags).
Proof.
  intros W. destruct (sp_wf_len s W) as [Lc Lw]. split; [|].
  - cbn [flip_closed sp_axes]. apply flip_by_wf, W.
  - rewrite flip_closed_res by auto. rewrite (fold_right_mul_prodn (sp_res s)).
    cbn [flip_closed sp_cps sp_weights]. unfold take. rewrite map_length, flip_ids_len. split; auto.
    destruct (sp_weights s); auto. now rewrite map_length, flip_ids_len.
Qed.

Lemma flip_closed_value s flags us d :
  sp_wf s -> length flags = length (sp_axes s) -> sp_domain s us ->
  Forall2 (fun fa u => fst fa = true -> ax_continuous_at (snd fa) u) (combine flags (sp_axes s))
          (flip_us flags (sp_axes s) us) ->
  sp_value (flip_closed s flags) us d = sp_value s (flip_us flags (sp_axes s) us) d.
Proof.
  intros W Lf D C. pose proof (res_pos s W) as Hpos. destruct (sp_wf_len s W) as [Lc Lw].
  pose proof (Forall2_len _ _ _ D) as Lu.
  pose proof (flip_ids_perm flags (sp_res s) Hpos) as Pi.
  pose proof (seq_perm_in_range _ _ Pi) as Hr.
  pose proof (flip_ids_len flags (sp_res s)) as Li.
  set (ids := flip_ids flags (sp_res s)) in *.
  apply (value_transfer s (flip_us flags (sp_axes s) us) (flip_closed s flags) us (fun g => nth g ids 0)).
  - cbn [flip_closed sp_axes]. now rewrite flip_by_length.
  - rewrite flip_closed_res by auto. cbn [flip_closed sp_cps]. fold ids. rewrite <- Li.
    apply take_reindexed. intros; rewrite Lc; auto.
  - rewrite flip_closed_res by auto. cbn [flip_closed sp_weights]. fold ids.
    destruct (sp_weights s); auto. rewrite <- Li. apply take_reindexed. intros; rewrite Lw; auto.
  - intros f. cbn [flip_closed sp_axes]. apply functional_reindex.
    + now rewrite flip_us_length.
    + now rewrite flip_by_length.
    + now rewrite flip_by_res by apply W.
    + exact Pi.
    + intros g Hg. rewrite flip_by_res by apply W.
      change (map ax_n (sp_axes s)) with (sp_res s) in *.
      unfold ids. rewrite flip_ids_digits by auto. apply flip_weights; auto; try apply W.
      now apply digits_valid.
Qed.

Lemma flip_closed_twice s flags : sp_wf s -> flip_closed (flip_closed s flags) flags = s.
Proof.
  intros W. unfold flip_closed at 1. rewrite flip_closed_res by auto.
  pose proof (res_pos s W) as Hpos. destruct (sp_wf_len s W) as [Lc Lw].
  cbn [flip_closed sp_axes sp_cps sp_weights].
  rewrite flip_by_twice by apply W.
  assert (Hrow : forall A (d : A) l, length l = prodn (sp_res s) ->
    take d (flip_ids flags (sp_res s)) (take d (flip_ids flags (sp_res s)) l) = l).
  { intros A d l Hl. apply take_take_inv; rewrite ?Hl.
    - now apply flip_ids_perm.
    - apply flip_ids_len.
    - intros; now apply flip_ids_twice.
    - intros; now apply flip_ids_lt. }
  rewrite Hrow by auto. destruct s as [ax cps w]. cbn [sp_axes sp_cps sp_weights] in *. f_equal.
  destruct w; auto. now rewrite Hrow.
Qed.

Lemma flip_us_nth flags axes us k :
  k < length us -> length flags = length us -> length axes = length us ->
  nth k (flip_us flags axes us) 0%Qc =
  let a := nth k axes (BezierAxis 0) in
  if nth k flags false then (ax_lower a + ax_upper a - nth k us 0)%Qc else nth k us 0%Qc.
Proof.
  revert axes us k; induction flags as [|f flags IH]; intros [|a axes] [|u us] [|k] H L1 L2;
    cbn in H, L1, L2; try lia; cbn [flip_us nth]; auto.
  apply IH; lia.
Qed.
Lemma flip_params_us n ks axes us :
  length us = n -> length axes = n -> flip_params ks axes us = flip_us (flip_flags n ks) axes us.
Proof.
  intros L La. apply nth_ext with (d := 0%Qc) (d' := 0%Qc).
  - unfold flip_params. now rewrite map_length, seq_length, flip_us_length.
  - intros k Hk. unfold flip_params in Hk. rewrite map_length, seq_length in Hk.
    rewrite flip_us_nth by (rewrite ?flip_flags_len; lia). rewrite flip_flags_nth by lia.
    unfold flip_params.
    set (F := fun k => let a := nth k axes (BezierAxis 0) in let u := nth k us 0%Qc in
                if existsb (Nat.eqb k) ks then (ax_lower a + ax_upper a - u)%Qc else u).
    rewrite (nth_indep _ 0%Qc (F 0)) by (rewrite map_length, seq_length; auto).
    rewrite map_nth, seq_nth by auto. reflexivity.
Qed.

Lemma Forall2_nth_intro {A B} (R : A -> B -> Prop) l l' d d' :
  length l = length l' -> (forall k, k < length l -> R (nth k l d) (nth k l' d')) -> Forall2 R l l'.
Proof.
  revert l'; induction l as [|x l IH]; intros [|y l'] L H; cbn in L; try lia; constructor.
  - apply (H 0). cbn; lia.
  - apply IH; [lia|]. intros k Hk. apply (H (S k)). cbn; lia.
Qed.

Lemma memb_in k ks : memb k ks = true <-> In k ks.
Proof.
  unfold memb. rewrite existsb_exists. split.
  - intros (x & Hx & E). apply Nat.eqb_eq in E. now subst.
  - intros H. exists k. split; auto. apply Nat.eqb_refl.
Qed.

Lemma flip_values s zs ks :
  sp_wf s -> Forall2 (names_axis (length (sp_axes s))) zs ks -> NoDup ks ->
  exists s', flip_axes s zs = Some s' /\ sp_wf s' /\
    map ax_n (sp_axes s') = map ax_n (sp_axes s) /\
    flip_axes s' zs = Some s /\
    forall us d, sp_domain s us ->
      (forall k a, In k ks -> nth_error (sp_axes s) k = Some a ->
         ax_continuous_at a (nth k (flip_params ks (sp_axes s) us) 0%Qc)) ->
      sp_value s' us d = sp_value s (flip_params ks (sp_axes s) us) d.
Proof.
  intros W H ND. set (n := length (sp_axes s)) in *.
  exists (flip_closed s (flip_flags n ks)).
  assert (W' : sp_wf (flip_closed s (flip_flags n ks))) by now apply flip_closed_wf.
  assert (Ln : length (sp_axes (flip_closed s (flip_flags n ks))) = n).
  { cbn [flip_closed sp_axes]. now rewrite flip_by_length. }
  repeat match goal with |- _ /\ _ => split end.
  - now apply flip_eq.
  - auto.
  - apply flip_by_res, W.
  - rewrite (flip_eq _ zs ks) by (rewrite ?Ln; auto). rewrite Ln. f_equal. now apply flip_closed_twice.
  - intros us d D C. pose proof (Forall2_len _ _ _ D) as Lu.
    rewrite (flip_params_us n) in * by auto.
    apply flip_closed_value; auto; [apply flip_flags_len|].
    apply Forall2_nth_intro with (d := (false, BezierAxis 0)) (d' := 0%Qc).
    + rewrite combine_length, flip_flags_len, flip_us_length. unfold n. lia.
    + intros k Hk. rewrite combine_length, flip_flags_len in Hk. fold n in Hk.
      rewrite combine_nth by (rewrite flip_flags_len; auto). cbn [fst snd].
      rewrite flip_flags_nth by lia. intros E. apply memb_in in E.
      apply C; auto. apply nth_error_nth'. unfold n in *. lia.
Qed.

Lemma flip_rejects s zs :
  Exists (fun z => (z < - Z.of_nat (length (sp_axes s)) \/ Z.of_nat (length (sp_axes s)) <= z)%Z) zs ->
  flip_axes s zs = None.
Proof.
  intros H. unfold flip_axes.
  assert (G : forall axes flags, length axes = length (sp_axes s) -> flip_loop zs axes flags = None).
  { induction H as [z zs Hz|z zs H IH]; intros axes flags L; cbn [flip_loop].
    - rewrite py_index_none; auto. now rewrite L.
    - destruct (py_index (length axes) z); auto. apply IH. now rewrite set_nth_length. }
  now rewrite G.
Qed.
