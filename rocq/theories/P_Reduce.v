(** Proofs about the removal of knots and the reduction of degrees. *)
From Coq Require Import List Arith Bool ZArith QArith Qcanon Lia Permutation Sorted.
From Verif Require Import Base BaseQc S_Spline S_Value P_KnotInsert M_Knots P_Insert P_Ffd M_Core S_Core P_Core S_Files S_Create S_Elevate P_Create P_SubCut M_Reduce S_Reduce.
Import ListNotations.
Local Open Scope list_scope.
Local Open Scope nat_scope.

(** * Distances *)
Lemma within_refl dim s : within dim 0 s s.
Proof.
  intros us D. split; auto. intros d Hd. replace (sp_value s us d - sp_value s us d)%Qc with 0%Qc by ring. apply Qcle_refl.
Qed.
Lemma qabs_triangle a b c : (qabs (a - c) <= qabs (a - b) + qabs (b - c))%Qc.
Proof. unfold qabs. destruct (Qclt_le_dec (a - c) 0), (Qclt_le_dec (a - b) 0), (Qclt_le_dec (b - c) 0); qlra. Qed.
Lemma within_trans dim e f s t u : within dim e s t -> within dim f t u -> within dim (e + f) s u.
Proof.
  intros A B us D. destruct (A us D) as [D1 A1]. destruct (B us D1) as [D2 B1]. split; auto. intros d Hd.
  specialize (A1 d Hd). specialize (B1 d Hd). pose proof (qabs_triangle (sp_value u us d) (sp_value t us d) (sp_value s us d)) as T.
  eapply Qcle_trans; [exact T|]. rewrite Qcplus_comm. now apply Qcplus_le_compat.
Qed.
Lemma family_refl s : same_family s s.
Proof. split; reflexivity. Qed.
Lemma family_trans s t u : same_family s t -> same_family t u -> same_family s u.
Proof. intros (A & B) (C & D). split; [congruence|tauto]. Qed.

Definition hits (flags : list bool) : nat := length (filter (fun b => b) flags).
Lemma hits_cons b l : inj (hits (b :: l)) = ((if b then 1 else 0) + inj (hits l))%Qc.
Proof.
  unfold hits. cbn [filter]. destruct b; cbn [length]; [|ring]. change (S (length (filter (fun b => b) l))) with (1 + length (filter (fun b => b) l)). now rewrite inj_add.
Qed.
Lemma no_hits flags : existsb (fun b => b) flags = false -> Forall (fun b => b = false) flags.
Proof. induction flags as [|[|] l IH]; cbn; intros H; [constructor|discriminate|]. constructor; auto. Qed.

Lemma marked_hits {A} : forall (l : list A) flags, length flags = length l -> length (marked l flags) = hits flags.
Proof.
  induction l as [|x l IH]; intros [|b flags] L; try discriminate L; [reflexivity|]. injection L as L. specialize (IH _ L). unfold hits in *. destruct b; cbn [marked filter length]; lia.
Qed.
Lemma marked_nil {A} : forall (l : list A) flags, length flags = length l -> marked l flags = [] -> Forall (fun b => b = false) flags.
Proof.
  induction l as [|x l IH]; intros [|b flags] L E; try discriminate L; [constructor|]. injection L as L. destruct b; [discriminate E|]. constructor; auto.
Qed.

(** * Axes *)
Lemma axis_set_nth k a b axes : nth_error axes k = Some b -> nth_error (axis_set k a axes) k = Some a.
Proof.
  revert axes. induction k as [|k IH]; intros [|c axes] H; try discriminate; [reflexivity|]. cbn in H. exact (IH axes H).
Qed.
Lemma axis_set_twice k a b axes : k < length axes -> axis_set k a (axis_set k b axes) = axis_set k a axes.
Proof.
  revert axes. induction k as [|k IH]; intros [|c axes] H; cbn [length] in H; try lia; [reflexivity|]. cbn. f_equal. apply IH. lia.
Qed.
Lemma axis_set_same k a axes : nth_error axes k = Some a -> axis_set k a axes = axes.
Proof.
  revert axes. induction k as [|k IH]; intros [|c axes] H; try discriminate; cbn in *; [injection H as ->; reflexivity|]. f_equal. now apply IH.
Qed.
Lemma axis_set_length k a axes : k < length axes -> length (axis_set k a axes) = length axes.
Proof. intros H. unfold axis_set. rewrite app_length, firstn_length. cbn [length]. rewrite skipn_length. lia. Qed.
Lemma axis_set_degrees k a b axes i : nth_error axes k = Some b ->
  nth i (map ax_degree (axis_set k a axes)) 0 = if i =? k then ax_degree a else nth i (map ax_degree axes) 0.
Proof.
  revert axes i. induction k as [|k IH]; intros [|c axes] i H; try discriminate; cbn in H.
  - destruct i; reflexivity.
  - destruct i; [reflexivity|]. cbn. apply (IH axes i H).
Qed.

(** * Reading *)
Lemma kvs_core st : s_core (snd (get_kvs st)) = s_core st.
Proof. unfold get_kvs. destruct (s_core st) eqn:E; [|exact E]. destruct (negb _); [exact E|]. destruct (s_kvs st) as [[]|]; cbn; auto. Qed.
Lemma kvs_reads st : reads (snd (get_kvs st)) = reads st.
Proof.
  unfold get_kvs. destruct (s_core st) as [s|] eqn:E; [|reflexivity]. destruct (has_kvs s) eqn:K; [|reflexivity]. cbn [negb].
  assert (forall o, s_kvs st = o -> (match o with Some Live | Some (Stale _) => False | _ => True end) -> reads (set_kvdata st (Some Live)) = reads st) as G.
  { intros o Eo Ho. destruct st as [c d k cp w m v f]. cbn [s_core s_kvs] in *. subst c k. unfold reads, get_degrees, get_kvs, get_cps, get_ws, get_mi, prepare, set_kvdata, is_psa. cbn [s_core s_deg s_kvs s_cps s_ws s_mi s_view s_fresh].
    rewrite K. cbn [negb]. destruct o as [[]|]; try easy; destruct d, m, cp as [[[] ? ? ?]|], w as [[[] ? ? ?]|], (sp_weights s); reflexivity. }
  destruct (s_kvs st) as [[]|] eqn:Ek; try reflexivity; now apply (G _ eq_refl).
Qed.
Lemma reads_same st st' s : reads st' = reads st -> reads_on st s st' s.
Proof.
  unfold reads. intros E. injection E as E1 E2 E3 E4 E5. change (fst (get_cps st') = fst (get_cps st)) in E3. change (fst (get_ws st') = fst (get_ws st)) in E4.
  unfold reads_on, degrees_agree, knots_agree, cps_agree, weights_agree, index_agrees. rewrite E1, E2, E3, E4, E5. tauto.
Qed.
Lemma knotted_kvs limit dim s : sound limit dim s -> has_kvs s = true -> Forall2 (fun a kv => exists p, a = KnotAxis p kv) (sp_axes s) (core_kvs s).
Proof.
  intros (St & _ & R & _) K. destruct (kinds limit dim s St R) as (Kd & _). rewrite K in Kd. unfold core_kvs. clear - Kd.
  induction Kd as [|[p|p kv] l H F IH]; cbn [map]; constructor; auto; [destruct H; discriminate|]. now exists p.
Qed.
(** After [_data] was cleared everything is read from the core. *)
Lemma cleared_reads limit dim s n : sound limit dim s ->
  let st := St (Some s) None None None None None None n in
  degrees_agree st s /\ (has_kvs s = true -> knots_agree st s) /\ cps_agree st s /\ weights_agree st s /\ index_agrees st s.
Proof.
  intros So st. repeat split.
  - intros K. exists (core_kvs s). split; [|eapply knotted_kvs; eauto]. unfold get_kvs, st. cbn. now rewrite K.
  - unfold cps_agree, get_cps, st, prepare, is_psa. cbn. destruct (sp_weights s); reflexivity.
  - unfold weights_agree, get_ws, st, prepare, is_psa. cbn. destruct (sp_weights s) eqn:E; reflexivity.
Qed.
Lemma settled_reads limit dim st0 st s s' flags : sound limit dim s' -> s_core st = Some s -> has_kvs s = true -> has_kvs s' = true -> reads st = reads st0 ->
  (Forall (fun b => b = false) flags -> s' = s) -> reads_on st0 s (settle st s' flags) s' /\ s_core (settle st s' flags) = Some s'.
Proof.
  intros So C K K' R E. unfold settle. destruct (existsb (fun b => b) flags) eqn:X.
  - split; [|reflexivity]. destruct (cleared_reads limit dim s' (s_fresh st) So) as (A & B & D & F & G). repeat split; auto.
  - specialize (E (no_hits _ X)). subst s'. split; [|reflexivity]. rewrite <- C. replace (St (s_core st) _ _ _ _ _ _ _) with st by (now destruct st). now apply reads_same.
Qed.

(** * Removing knots *)
Section Remove.
Context (rem : spline -> nat -> Qc -> Qc -> spline * Z) (Hr : removes_knot rem).
Lemma remove_loop_spec limit dim k p tol : (0 <= tol)%Qc -> forall ks s kv, sound limit dim s -> nth_error (sp_axes s) k = Some (KnotAxis p kv) ->
  let (s', flags) := remove_loop rem s k ks tol in
  length flags = length ks /\ sound limit dim s' /\ same_family s s' /\ within dim (inj (hits flags) * tol) s s' /\
  (Forall (fun b => b = false) flags -> s' = s) /\
  exists kv', Permutation kv (marked ks flags ++ kv') /\ sp_axes s' = axis_set k (KnotAxis p kv') (sp_axes s).
Proof.
  intros Ht ks. induction ks as [|x ks IH]; intros s kv So En; cbn [remove_loop].
  - split; [reflexivity|]. split; [exact So|]. split; [apply family_refl|]. split; [|split; [reflexivity|]].
    + replace (inj (hits []) * tol)%Qc with 0%Qc by (change (inj (hits [])) with (inj 0); rewrite inj_0; ring). apply within_refl.
    + exists kv. split; [reflexivity|]. symmetry. now apply axis_set_same.
  - unfold scalar_remove. pose proof (Hr limit dim s k p kv x tol So En Ht) as H0. destruct (rem s k x tol) as [s1 m].
    destruct H0 as [[-> ->]|(Hm & So1 & F1 & W1 & kv1 & P1 & A1)].
    + change (negb (0 =? 0)%Z) with false. specialize (IH s kv So En). destruct (remove_loop rem s k ks tol) as [s2 bs]. destruct IH as (L & So2 & F2 & W2 & E2 & kv2 & P2 & A2).
      split; [cbn; lia|]. split; [exact So2|]. split; [exact F2|]. split; [|split].
      * rewrite hits_cons. replace ((0 + inj (hits bs)) * tol)%Qc with (inj (hits bs) * tol)%Qc by ring. exact W2.
      * intros H. apply E2. now inversion H.
      * exists kv2. split; [exact P2|exact A2].
    + assert (nth_error (sp_axes s1) k = Some (KnotAxis p kv1)) as En1 by (rewrite A1; eapply axis_set_nth; eauto).
      specialize (IH s1 kv1 So1 En1). destruct (remove_loop rem s1 k ks tol) as [s2 bs]. destruct IH as (L & So2 & F2 & W2 & E2 & kv2 & P2 & A2).
      apply Z.eqb_neq in Hm. rewrite Hm. cbn [negb].
      split; [cbn; lia|]. split; [exact So2|]. split; [eapply family_trans; eauto|]. split; [|split].
      * rewrite hits_cons. replace ((1 + inj (hits bs)) * tol)%Qc with (tol + inj (hits bs) * tol)%Qc by ring. eapply within_trans; eauto.
      * intros H. inversion H. discriminate.
      * exists kv2. split; [cbn [marked app]; rewrite P1; now constructor|]. rewrite A2, A1. apply axis_set_twice. apply nth_error_Some. congruence.
Qed.
End Remove.

Lemma kv_shape limit dim s k p kv : sound limit dim s -> nth_error (sp_axes s) k = Some (KnotAxis p kv) -> non_decreasing kv /\ kv <> [].
Proof.
  intros (_ & (W & _) & _) En. rewrite Forall_forall in W. apply nth_error_In in En. destruct (W _ En) as (L & N & _). split; auto. intros ->. cbn in L. lia.
Qed.
Lemma range_ok kv ks : non_decreasing kv -> kv <> [] -> ks <> [] ->
  (forall x, In x ks -> in_range kv x) <-> (qltb (qmax_list kv) (qmax_list ks) = false /\ qltb (qmin_list ks) (qmin_list kv) = false).
Proof.
  intros N K0 K1. destruct (P_Ffd.qmax_list_spec kv K0) as [A1 A2]. destruct (P_Ffd.qmin_list_spec kv K0) as [B1 B2].
  destruct (P_Ffd.qmax_list_spec ks K1) as [C1 C2]. destruct (P_Ffd.qmin_list_spec ks K1) as [D1 D2].
  assert (forall y, In y kv -> in_range kv y) as R.
  { intros y Y. destruct (In_nth _ _ 0%Qc Y) as (j & J & <-). unfold in_range. rewrite <- (P_Spline.kn_nth kv j 0%Qc J). split; apply (P_Spline.kn_mono kv N); lia. }
  assert (In (kn kv 0) kv /\ In (kn kv (length kv - 1)) kv) as [I0 I1].
  { unfold kn. destruct kv; [easy|]. split; apply nth_In; cbn [length]; lia. }
  split.
  - intros H. split.
    + destruct (qltb_spec (qmax_list kv) (qmax_list ks)); auto. exfalso. destruct (H _ C1) as [_ H1]. specialize (A2 _ I1). clear - q H1 A2. qlra.
    + destruct (qltb_spec (qmin_list ks) (qmin_list kv)); auto. exfalso. destruct (H _ D1) as [H1 _]. specialize (B2 _ I0). clear - q H1 B2. qlra.
  - intros [H1 H2] x X. destruct (qltb_spec (qmax_list kv) (qmax_list ks)) as [|G1]; [discriminate|]. destruct (qltb_spec (qmin_list ks) (qmin_list kv)) as [|G2]; [discriminate|].
    specialize (C2 x X). specialize (D2 x X). destruct (R _ A1) as [_ R1]. destruct (R _ B1) as [R2 _]. clear - G1 G2 C2 D2 R1 R2. split; qlra.
Qed.
Lemma agreed_kvs st s kvs k : s_core st = Some s -> knots_agree st s -> fst (get_kvs st) = Some kvs -> 
  length kvs = length (sp_axes s) /\ forall p kv, nth_error (sp_axes s) k = Some (KnotAxis p kv) -> nth_error kvs k = Some kv.
Proof.
  intros C (l & E & F) E'. rewrite E in E'. injection E' as <-. clear E C. split; [symmetry; eapply Forall2_len; eauto|].
  revert k. induction F as [|a kv0 axes l (p0 & ->) F IH]; intros [|k] p kv H; try discriminate; cbn in *; [congruence|]. eapply IH; eauto.
Qed.

Theorem removal_spec rem limit dim st s k p kv ks tol : removes_knot rem -> sound limit dim s -> has_kvs s = true -> s_core st = Some s -> knots_agree st s -> (0 <= tol)%Qc ->
  nth_error (sp_axes s) k = Some (KnotAxis p kv) -> (forall x, In x ks -> in_range kv x) ->
  exists flags st' s', remove_knots rem st (Z.of_nat k) ks tol = Returned flags st' /\ s_core st' = Some s' /\ length flags = length ks /\
    (exists kv', Permutation kv (marked ks flags ++ kv') /\ sp_axes s' = axis_set k (KnotAxis p kv') (sp_axes s)) /\
    sound limit dim s' /\ same_family s s' /\ within dim (inj (length (marked ks flags)) * tol) s s' /\ (marked ks flags = [] -> s' = s) /\
    reads_on st s st' s'.
Proof.
  intros Hr So K C A Ht En R. assert (k < length (sp_axes s)) as Hk by (apply nth_error_Some; congruence).
  pose proof (@marked_hits Qc) as HM. pose proof (@marked_nil Qc) as HN.
  unfold remove_knots. rewrite C. destruct (Z.leb_spec (Z.of_nat (length (sp_axes s))) (Z.of_nat k)); [lia|].
  destruct ks as [|x0 ks0] eqn:Eks.
  - exists [], st, s. split; [reflexivity|]. split; [exact C|]. split; [reflexivity|]. split; [|split; [exact So|split; [apply family_refl|split; [|split; [reflexivity|now apply reads_same]]]]].
    + exists kv. split; [reflexivity|]. symmetry. now apply axis_set_same.
    + cbn [marked length]. rewrite inj_0. replace (0 * tol)%Qc with 0%Qc by ring. apply within_refl.
  - rewrite <- Eks in *. assert (ks <> []) as Nk by (rewrite Eks; discriminate). clear x0 ks0 Eks.
    destruct (kv_shape limit dim s k p kv So En) as [N K0]. destruct (proj1 (range_ok kv ks N K0 Nk) R) as [R1 R2].
    pose proof (kvs_core st) as Cs. pose proof (kvs_reads st) as Rs. destruct (get_kvs st) as [kvs st1] eqn:Eg. cbn [snd] in Cs, Rs.
    destruct A as (l & El & Fl). rewrite Eg in El. cbn [fst] in El. subst kvs.
    destruct (agreed_kvs st s l k C) as [_ Hn]; [exists l; now rewrite Eg|now rewrite Eg|].
    unfold py_item. destruct (Z.leb_spec 0 (Z.of_nat k)); [|lia]. rewrite Nat2Z.id, (Hn _ _ En), R1, R2.
    destruct (Z.ltb_spec (Z.of_nat k) 0); [lia|].
    pose proof (remove_loop_spec rem Hr limit dim k p tol Ht ks s kv So En) as G. destruct (remove_loop rem s k ks tol) as [s' flags].
    destruct G as (L & So' & F & W & E & kv' & P & Ax). rewrite C in Cs. assert (has_kvs s' = true) as K' by (destruct F as [F _]; congruence).
    destruct (settled_reads limit dim st st1 s s' flags So' Cs K K' Rs E) as [Rd Cd].
    exists flags, (settle st1 s' flags), s'. split; [reflexivity|]. split; [exact Cd|]. split; [exact L|]. split; [now exists kv'|]. split; [exact So'|]. split; [exact F|].
    split; [rewrite HM by auto; exact W|]. split; [|exact Rd]. intros M. apply E. eapply HN; eauto.
Qed.

(** * What is refused *)
Theorem removal_refused rem limit dim st s k p kv ks tol x : sound limit dim s -> has_kvs s = true -> s_core st = Some s -> knots_agree st s ->
  nth_error (sp_axes s) k = Some (KnotAxis p kv) -> In x ks -> ~ in_range kv x ->
  exists st', remove_knots rem st (Z.of_nat k) ks tol = Raises st' /\ s_core st' = Some s /\ reads st' = reads st.
Proof.
  intros So K C A En Hx Nx. assert (k < length (sp_axes s)) as Hk by (apply nth_error_Some; congruence). unfold remove_knots. rewrite C.
  destruct (Z.leb_spec (Z.of_nat (length (sp_axes s))) (Z.of_nat k)); [lia|]. destruct ks as [|x0 ks0] eqn:Eks; [easy|]. rewrite <- Eks in *.
  assert (ks <> []) as Nk by (rewrite Eks; discriminate). clear x0 ks0 Eks. destruct (kv_shape limit dim s k p kv So En) as [N K0].
  pose proof (kvs_core st) as Cs. pose proof (kvs_reads st) as Rs. destruct (get_kvs st) as [kvs st1] eqn:Eg. cbn [snd] in Cs, Rs.
  destruct A as (l & El & Fl). rewrite Eg in El. cbn [fst] in El. subst kvs.
  destruct (agreed_kvs st s l k C) as [_ Hn]; [exists l; now rewrite Eg|now rewrite Eg|].
  unfold py_item. destruct (Z.leb_spec 0 (Z.of_nat k)); [|lia]. rewrite Nat2Z.id, (Hn _ _ En).
  exists st1. rewrite Cs. split; [|split; auto].
  destruct (qltb (qmax_list kv) (qmax_list ks)) eqn:Q1; [reflexivity|]. destruct (qltb (qmin_list ks) (qmin_list kv)) eqn:Q2; [reflexivity|].
  exfalso. apply Nx. apply (proj2 (range_ok kv ks N K0 Nk)); auto.
Qed.
Theorem removal_bad_axis rem st s d ks tol : s_core st = Some s -> (Z.of_nat (length (sp_axes s)) <= d)%Z -> remove_knots rem st d ks tol = Raises st.
Proof. intros C H. unfold remove_knots. rewrite C. destruct (Z.leb_spec (Z.of_nat (length (sp_axes s))) d); [reflexivity|lia]. Qed.
Theorem removal_negative rem limit dim st s k p kv ks tol : sound limit dim s -> s_core st = Some s -> has_kvs s = true -> knots_agree st s ->
  nth_error (sp_axes s) k = Some (KnotAxis p kv) -> ks <> [] -> (forall x, In x ks -> in_range kv x) ->
  remove_knots rem st (Z.of_nat k - Z.of_nat (length (sp_axes s)))%Z ks tol = Undefined.
Proof.
  intros So C K A En Nk R. assert (k < length (sp_axes s)) as Hk by (apply nth_error_Some; congruence). unfold remove_knots. rewrite C.
  set (n := length (sp_axes s)) in *. destruct (Z.leb_spec (Z.of_nat n) (Z.of_nat k - Z.of_nat n)); [lia|]. destruct ks as [|x0 ks0] eqn:Eks; [easy|]. rewrite <- Eks in *. clear x0 ks0 Eks.
  destruct (kv_shape limit dim s k p kv So En) as [N K0]. destruct (proj1 (range_ok kv ks N K0 Nk) R) as [R1 R2].
  destruct (get_kvs st) as [kvs st1] eqn:Eg. destruct A as (l & El & Fl). rewrite Eg in El. cbn [fst] in El. subst kvs.
  destruct (agreed_kvs st s l k C) as [Ln Hn]; [exists l; now rewrite Eg|now rewrite Eg|].
  unfold py_item. fold n in Ln. rewrite Ln. destruct (Z.leb_spec 0 (Z.of_nat k - Z.of_nat n)); [lia|]. destruct (Z.leb_spec 0 (Z.of_nat k - Z.of_nat n + Z.of_nat n)); [|lia].
  replace (Z.to_nat (Z.of_nat k - Z.of_nat n + Z.of_nat n)) with k by lia. rewrite (Hn _ _ En), R1, R2. destruct (Z.ltb_spec (Z.of_nat k - Z.of_nat n) 0); [reflexivity|lia].
Qed.

(** * Lowering degrees *)
Section Reduce.
Context (red : spline -> nat -> Qc -> spline * bool) (Hr : lowers_degree red).
Lemma reduce_loop_spec limit dim tol n : (0 <= tol)%Qc -> forall dims s, sound limit dim s -> has_kvs s = true -> length (sp_axes s) = n -> Forall (valid_dim s) dims ->
  exists s' flags, reduce_loop red n s dims tol = (s', Some flags) /\
  length flags = length dims /\ sound limit dim s' /\ same_family s s' /\ within dim (inj (hits flags) * tol) s s' /\
  (Forall (fun b => b = false) flags -> s' = s) /\ length (sp_axes s') = n /\
  forall i, nth i (map ax_degree (sp_axes s)) 0 = nth i (map ax_degree (sp_axes s')) 0 + asked (marked dims flags) i.
Proof.
  intros Ht dims. induction dims as [|d dims IH]; intros s So K Hn V; cbn [reduce_loop].
  - exists s, []. split; [reflexivity|]. split; [reflexivity|]. split; [exact So|]. split; [apply family_refl|]. split; [|split; [reflexivity|split; [exact Hn|]]].
    + replace (inj (hits []) * tol)%Qc with 0%Qc by (change (inj (hits [])) with (inj 0); rewrite inj_0; ring). apply within_refl.
    + intros i. cbn [marked]. unfold asked. cbn. lia.
  - inversion V as [|? ? V1 V2]; subst. destruct V1 as [V0 V1]. set (n := length (sp_axes s)) in *.
    destruct (Z.ltb_spec d (Z.of_nat n)); [|lia]. destruct (Z.ltb_spec d 0); [lia|]. cbn [negb orb]. rewrite K. cbn [negb].
    destruct (nth_error (sp_axes s) (Z.to_nat d)) as [a|] eqn:En; [|apply nth_error_None in En; unfold n in *; lia].
    pose proof (Hr limit dim s (Z.to_nat d) a tol So K En Ht) as H9. destruct (red s (Z.to_nat d) tol) as [s1 b].
    destruct H9 as [[-> ->]|(-> & So1 & F1 & W1 & a' & D1 & A1)].
    + destruct (IH s So K eq_refl V2) as (s2 & bs & E & L & So2 & F2 & W2 & E2 & N2 & G2). fold n in E. rewrite E. exists s2, (false :: bs).
      split; [reflexivity|]. split; [cbn; lia|]. split; [exact So2|]. split; [exact F2|]. split; [|split; [|split; [exact N2|exact G2]]].
      * rewrite hits_cons. replace ((0 + inj (hits bs)) * tol)%Qc with (inj (hits bs) * tol)%Qc by ring. exact W2.
      * intros H'. apply E2. now inversion H'.
    + assert (length (sp_axes s1) = n) as N1. { rewrite A1. unfold n. apply axis_set_length. apply nth_error_Some. congruence. }
      destruct (IH s1 So1) as (s2 & bs & E & L & So2 & F2 & W2 & E2 & N2 & G2).
      { destruct F1 as [F1 _]. congruence. } { exact N1. } { eapply Forall_impl; [|exact V2]. intros e. unfold valid_dim. rewrite N1. auto. }
      rewrite E. exists s2, (true :: bs). split; [reflexivity|]. split; [cbn; lia|]. split; [exact So2|]. split; [eapply family_trans; eauto|]. split; [|split; [|split; [exact N2|]]].
      * rewrite hits_cons. replace ((1 + inj (hits bs)) * tol)%Qc with (tol + inj (hits bs) * tol)%Qc by ring. eapply within_trans; eauto.
      * intros H'. inversion H'. discriminate.
      * intros i. specialize (G2 i). rewrite A1, (axis_set_degrees _ _ _ _ i En) in G2. cbn [marked]. unfold asked in *. cbn [count_occ].
        destruct (Nat.eqb_spec i (Z.to_nat d)) as [Ei|Ni]; [rewrite Ei in * |].
        -- destruct (Z.eq_dec d (Z.of_nat (Z.to_nat d))); [|lia]. rewrite (nth_indep _ 0 (ax_degree a)).
           ++ rewrite map_nth. rewrite (nth_error_nth _ _ a En). lia.
           ++ rewrite map_length. apply nth_error_Some. congruence.
        -- destruct (Z.eq_dec d (Z.of_nat i)); lia.
Qed.
End Reduce.

Theorem reduction_spec red limit dim st s dims tol : lowers_degree red -> sound limit dim s -> has_kvs s = true -> s_core st = Some s -> (0 <= tol)%Qc ->
  Forall (valid_dim s) dims ->
  exists flags st' s', reduce_degrees red st dims tol = Returned flags st' /\ s_core st' = Some s' /\ length flags = length dims /\
    length (sp_axes s') = length (sp_axes s) /\
    (forall i, nth i (map ax_degree (sp_axes s)) 0 = nth i (map ax_degree (sp_axes s')) 0 + asked (marked dims flags) i) /\
    sound limit dim s' /\ same_family s s' /\ within dim (inj (length (marked dims flags)) * tol) s s' /\ (marked dims flags = [] -> s' = s) /\
    reads_on st s st' s'.
Proof.
  intros Hr So K C Ht V.
  pose proof (@marked_hits Z) as HM. pose proof (@marked_nil Z) as HN.
  unfold reduce_degrees. rewrite C. destruct (reduce_loop_spec red Hr limit dim tol (length (sp_axes s)) Ht dims s So K eq_refl V) as (s' & flags & E & L & So' & F & W & E2 & N & G).
  rewrite E. assert (has_kvs s' = true) as K' by (destruct F as [F _]; congruence). destruct (settled_reads limit dim st st s s' flags So' C K K' eq_refl E2) as [Rd Cd].
  exists flags, (settle st s' flags), s'. split; [reflexivity|]. split; [exact Cd|]. split; [exact L|]. split; [exact N|]. split; [exact G|]. split; [exact So'|]. split; [exact F|].
  split; [rewrite HM by auto; exact W|]. split; [|exact Rd]. intros M. apply E2. eapply HN; eauto.
Qed.
Theorem reduction_invalid red st s dims tol d : s_core st = Some s -> In d dims -> ~ valid_dim s d ->
  exists st', reduce_degrees red st dims tol = Raises st'.
Proof.
  intros C Hd Nd. unfold reduce_degrees. rewrite C. unfold valid_dim in Nd. set (n := length (sp_axes s)) in *.
  assert (forall dims s, In d dims -> snd (reduce_loop red n s dims tol) = None) as G.
  { clearbody n. clear - Nd. intros l. induction l as [|e l IH]; intros t Hd; [easy|]. cbn [reduce_loop].
    destruct (negb (e <? Z.of_nat n) || (e <? 0))%Z eqn:B; [reflexivity|]. destruct (negb (has_kvs t)); [reflexivity|]. destruct (red t (Z.to_nat e) tol) as [s1 b].
    destruct Hd as [->|Hd]; [exfalso; apply Nd; apply orb_false_iff in B as [B1 B2]; apply negb_false_iff in B1; apply Z.ltb_lt in B1; apply Z.ltb_ge in B2; lia|].
    specialize (IH s1 Hd). destruct (reduce_loop red n s1 l tol) as [s2 bs]. cbn [snd] in *. now rewrite IH. }
  specialize (G dims s Hd). destruct (reduce_loop red n s dims tol) as [s2 bs]. cbn [snd] in G. subst bs. eauto.
Qed.
Theorem reduction_bezier red st s d dims tol : s_core st = Some s -> has_kvs s = false -> reduce_degrees red st (d :: dims) tol = Raises st.
Proof.
  intros C K. unfold reduce_degrees. rewrite C. cbn [reduce_loop]. rewrite K. cbn [negb]. destruct (negb _ || _); rewrite <- C; destruct st; reflexivity.
Qed.
