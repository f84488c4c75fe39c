(** A knot insertion that meets the contract of [raises_multiplicity]. *)
From Coq Require Import List Arith ZArith Bool QArith Qcanon Lia Sorted Permutation.
From Verif Require Import Base BaseRadix BaseQc S_Grid S_Spline S_Value P_Spline P_Value S_KnotInsert M_KnotInsert P_KnotInsert P_KnotGlobal S_Integrate P_IntWitness S_Extraction M_Extraction P_Extraction M_Core S_Core P_Core M_Files S_Files S_Create P_Create S_SubSpline P_SubSpline P_SubCut P_Integrate.
Import ListNotations.
Local Open Scope list_scope.
Local Open Scope nat_scope.

Definition with_knot (x : Qc) (kv : list Qc) : list Qc := filter (fun y => qleb y x) kv ++ x :: filter (fun y => negb (qleb y x)) kv.
(** Insertion of [x] into the knots of axis [k] by the knot insertion matrix, in homogeneous
    coordinates for rational splines. *)
Definition insert_one (s : spline) (k : nat) (x : Qc) : spline :=
  match nth_error (sp_axes s) k with
  | Some (KnotAxis p kv) =>
      if p <? times x kv then s
      else match global_insertion_matrix (min_gap (kv ++ [x])) (map pair_of (sp_axes s)) k [x] with
      | Some g =>
          let axes := firstn k (sp_axes s) ++ KnotAxis p (with_knot x kv) :: skipn (S k) (sp_axes s) in
          let dim := dim_of (sp_cps s) in
          match sp_weights s with
          | None => Spl axes (combined (dense g) dim (sp_cps s)) None
          | Some ws => Spl axes (projected (weights_of (dense g) ws) (combined (dense g) dim (weighted ws (sp_cps s)))) (Some (weights_of (dense g) ws))
          end
      | None => s
      end
  | _ => s
  end.

Lemma filter_true {A} (f : A -> bool) l : Forall (fun x => f x = true) l -> filter f l = l.
Proof. induction 1 as [|x l H F IH]; cbn; auto. now rewrite H, IH. Qed.
Lemma filter_false {A} (f : A -> bool) l : Forall (fun x => f x = false) l -> filter f l = [].
Proof. induction 1 as [|x l H F IH]; cbn; auto. now rewrite H. Qed.
Lemma with_knot_parts x kv : StronglySorted Qcle kv -> exists l1 l2, kv = l1 ++ l2 /\ with_knot x kv = l1 ++ x :: l2 /\
  Forall (fun y => y <= x)%Qc l1 /\ Forall (fun y => x <= y)%Qc l2.
Proof.
  intros H. destruct (sorted_parts x kv H) as (l1 & l2 & E & F1 & F2). exists (l1 ++ repeat x (times x kv)), l2.
  assert (Forall (fun y => y <= x)%Qc (l1 ++ repeat x (times x kv))) as F.
  { apply Forall_app. split; [eapply Forall_impl; [|exact F1]; intros; now apply Qclt_le_weak|]. apply Forall_forall. intros y Y. apply repeat_spec in Y. subst. apply Qcle_refl. }
  rewrite <- app_assoc. split; [exact E|]. split; [|split; [exact F|eapply Forall_impl; [|exact F2]; intros; now apply Qclt_le_weak]].
  unfold with_knot. rewrite E at 1 2. rewrite (app_assoc l1), !filter_app. rewrite <- !filter_app.
  rewrite !(filter_app _ (l1 ++ _) l2). rewrite (filter_true _ (l1 ++ _)), (filter_false _ l2), (filter_false _ (l1 ++ _)), (filter_true _ l2).
  - rewrite app_nil_r. reflexivity.
  - eapply Forall_impl; [|exact F2]. cbn. intros y Y. destruct (qleb_spec y x); auto. exfalso. clear - q Y. qlra.
  - eapply Forall_impl; [|exact F]. cbn. intros y Y. destruct (qleb_spec y x); easy.
  - eapply Forall_impl; [|exact F2]. cbn. intros y Y. destruct (qleb_spec y x); auto. exfalso. clear - q Y. qlra.
  - eapply Forall_impl; [|exact F]. cbn. intros y Y. destruct (qleb_spec y x); easy.
Qed.
Lemma with_knot_perm x kv : Permutation (with_knot x kv) (kv ++ [x]).
Proof.
  unfold with_knot. rewrite <- Permutation_middle. rewrite <- Permutation_cons_append. constructor.
  induction kv as [|y kv IH]; cbn; auto. destruct (qleb y x); cbn [negb app]; [now constructor|]. rewrite <- Permutation_middle. now constructor.
Qed.
Lemma sorted_insert (x : Qc) l1 l2 : StronglySorted Qcle (l1 ++ l2) -> Forall (fun y => y <= x)%Qc l1 -> Forall (fun y => x <= y)%Qc l2 -> StronglySorted Qcle (l1 ++ x :: l2).
Proof.
  induction l1 as [|y l1 IH]; cbn [app]; intros H F1 F2; [now constructor|]. inversion H; subst. constructor; [apply IH; auto; now inversion F1|].
  apply Forall_app in H3 as [G1 G2]. apply Forall_app. split; auto. constructor; auto. now inversion F1.
Qed.

Lemma kinds_knotted limit dim axs : Forall (of_kind true limit dim) axs -> Forall (fun a => match a with KnotAxis _ _ => True | _ => False end) axs.
Proof. apply Forall_impl. intros [|]; cbn; intuition discriminate. Qed.

Lemma insert_one_raises tol : raises_multiplicity tol insert_one.
Proof.
  intros limit dim s k p kv x So En Hp Hc Hk Cl. split.
  { intros E. unfold insert_one. rewrite En, E. destruct (Nat.ltb_spec p (p + 1)); [reflexivity|lia]. }
  intros E Lx Ux. pose proof So as (St & W & R & Pw). destruct (kinds limit dim s St R) as (Kd & Ll & Na). rewrite Hk in Kd. pose proof (kinds_knotted _ _ _ Kd) as Ka.
  pose proof (dim_pos limit dim s St R) as Hd0.
  assert (dim_of (sp_cps s) = dim) as Ed. { pose proof (wf_positive s W) as P. unfold dim_of. destruct (sp_cps s); [cbn in P; lia|]. now inversion R. }
  assert (knot_vector p (ax_n (KnotAxis p kv)) kv) as KV. { destruct W as [W _]. rewrite Forall_forall in W. apply nth_error_In in En. exact (W _ En). }
  assert (StronglySorted Qcle kv) as Sk by (apply P_KnotInsert.nd_sorted; apply KV).
  destruct (with_knot_parts x kv Sk) as (l1 & l2 & E1 & E2 & F1 & F2). exists l1, l2. split; [exact E1|]. split; [exact F1|]. split; [exact F2|].
  assert (non_decreasing (with_knot x kv)) as Nn. { apply P_KnotInsert.nd_sorted. rewrite E2. apply sorted_insert; auto. now rewrite <- E1. }
  assert (nth_error (map pair_of (sp_axes s)) k = Some (p, kv)) as En'. { rewrite nth_error_map, En. reflexivity. }
  destruct (min_gap_spec (kv ++ [x])) as [G0 G1]. unfold insert_one. rewrite En. destruct (Nat.ltb_spec p (times x kv)); [lia|]. set (tol' := min_gap (kv ++ [x])) in *. clearbody tol'.
  assert (insertable tol' p (length kv - p - 1) kv [x]) as Ins.
  { cbn [ax_clamped ax_n] in Hc. destruct Hc as (C1 & C2 & C3 & C4). constructor; auto.
    - intros y z Hy Hz. apply G1; auto. apply in_app_iff. auto.
    - intros y [<-|[]]. split; auto. }
  set (axes' := firstn k (sp_axes s) ++ KnotAxis p (with_knot x kv) :: skipn (S k) (sp_axes s)).
  assert (firstn k (map pair_of (sp_axes s)) ++ (p, with_knot x kv) :: skipn (S k) (map pair_of (sp_axes s)) = map pair_of axes') as Ea.
  { unfold axes'. rewrite map_app, firstn_map. cbn [map pair_of]. now rewrite skipn_map. }
  assert (Forall (of_kind true limit dim) axes') as Kd'.
  { unfold axes'. apply Forall_app. split; [now apply P_Integrate.Forall_firstn|]. constructor; [|now apply P_Integrate.Forall_skipn].
    assert (of_kind true limit dim (KnotAxis p kv)) as (_ & (H1 & H2 & H3) & H4) by (rewrite Forall_forall in Kd; apply nth_error_In in En; auto).
    cbn. split; auto. split; [split; [auto|split; [exact Nn|]]|].
    - rewrite (Permutation_length (with_knot_perm x kv)), app_length. cbn [length]. lia.
    - apply Forall_forall. intros y Hy. apply (Permutation_in _ (with_knot_perm x kv)) in Hy. rewrite Forall_forall in H4. apply in_app_iff in Hy as [Hy|[<-|[]]]; auto.
      apply Qcle_trans with (kn kv p); [|now apply Qclt_le_weak]. apply H4. destruct KV as (KV & _). unfold kn. apply nth_In. lia. }
  pose proof (kinds_knotted _ _ _ Kd') as Ka'.
  assert (axes' <> []) as Na'. { unfold axes'. intros X. apply app_eq_nil in X as [_ X]. discriminate. }
  assert (length axes' <= limit) as Ll'.
  { unfold axes'. rewrite app_length. cbn [length]. rewrite firstn_length, skipn_length. assert (k < length (sp_axes s)) by (apply nth_error_Some; congruence). lia. }
  assert (forall c, length c = length (sp_cps s) -> exists g, global_insertion_matrix tol' (map pair_of (sp_axes s)) k [x] = Some g /\
    convex_matrix (gm_new g) (length (sp_cps s)) (dense g) /\ gm_new g = prodn (map ax_n axes') /\ Forall ax_wf axes' /\
    forall n us d, sp_domain s us -> d < n -> sp_value (Spl axes' (combined (dense g) n c) None) us d = sp_value (Spl (sp_axes s) c None) us d) as Main.
  { intros c Lc. assert (bs_wf (BSpline (map pair_of (sp_axes s)) c)) as Wb.
    { apply same_wf; [exact Ka|]. destruct W as (W1 & W2 & W3). split; [exact W1|]. cbn [sp_cps sp_weights]. split; auto. rewrite Lc. exact W2. }
    assert (exists g, global_insertion_matrix tol' (map pair_of (sp_axes s)) k [x] = Some g) as (g & Eg).
    { destruct (insertion_geometry tol' (map pair_of (sp_axes s)) c k p kv [x] 0 Wb En' Ins) as (g & Eg & _). eauto. }
    exists g. split; [exact Eg|].
    assert (forall n, convex_rows (gm_entries g) (gm_new g) (length c) /\ let s' := BSpline (map pair_of axes') (apply_entries (gm_entries g) (gm_new g) n c) in
      bs_wf s' /\ forall us, bs_in_domain (BSpline (map pair_of (sp_axes s)) c) us -> bs_in_domain s' us /\ forall d, d < n -> bs_value s' us d = bs_value (BSpline (map pair_of (sp_axes s)) c) us d) as H0.
    { intros n. destruct (insertion_geometry tol' (map pair_of (sp_axes s)) c k p kv [x] n Wb En' Ins) as (g' & Eg' & Cr & V). rewrite Eg in Eg'. injection Eg' as <-.
      specialize (V (with_knot x kv) (with_knot_perm x kv) Nn). cbv zeta in V. rewrite Ea in V. split; auto. }
    assert (gm_old g = length c) as Eo. { rewrite (gm_old_eq _ _ _ _ _ Eg). symmetry. apply Wb. }
    destruct (H0 0) as (Cr & W0 & _). apply same_wf in W0; [|exact Ka']. destruct W0 as (W1 & W2 & _). cbn [sp_cps] in W2. rewrite apply_length in W2.
    split; [rewrite <- Lc, <- Eo; apply convex_dense; now rewrite Eo|]. split; [exact W2|]. split; [exact W1|]. intros n us d D Hd.
    rewrite combined_dense; [|now rewrite Eo|intros r c' v Hv; rewrite Eo; eapply Cr; eauto]. destruct (H0 n) as (_ & _ & V). rewrite <- !same_value by assumption.
    apply V; auto. now apply same_domain. }
  destruct (Main (sp_cps s) eq_refl) as (g & Eg & Cm & Gn & Wa & _). rewrite Eg. fold axes'. rewrite Ed.
  assert (forall c n us d, length c = length (sp_cps s) -> sp_domain s us -> d < n -> sp_value (Spl axes' (combined (dense g) n c) None) us d = sp_value (Spl (sp_axes s) c None) us d) as V.
  { intros c n us d Lc D Hn. destruct (Main c Lc) as (g' & Eg' & _ & _ & _ & V). rewrite Eg in Eg'. injection Eg' as <-. now apply V. }
  clear Main. assert (forall n c, length (combined (dense g) n c) = gm_new g) as Lg. { intros n c. unfold combined. rewrite map_length. apply Cm. }
  assert (forall n c, Forall (fun P => length P = n) (combined (dense g) n c)) as Fg.
  { intros n c. unfold combined. apply Forall_map, Forall_forall. intros row _. now rewrite map_length, seq_length. }
  assert (forall cps ws, Forall (fun P => length P = dim) cps -> length cps = gm_new g -> match ws with Some w => length w = gm_new g /\ Forall (fun w => 0 < w)%Qc w | None => True end ->
    sound limit dim (Spl axes' cps ws)) as Sd.
  { intros cps ws Fc Lc Hw. assert (has_kvs (Spl axes' cps ws) = true) as Hk'. { unfold has_kvs. cbn [sp_axes]. destruct Ka' as [|[|] ? H']; easy. }
    destruct (build limit dim (Spl axes' cps ws) axes' cps ws) as [_ B]; auto.
    - now rewrite Hk'.
    - now rewrite Lc.
    - reflexivity.
    - destruct ws; auto. rewrite Lc. apply Hw.
    - split; [exact B|]. split; [|split; [exact Fc|]].
      + split; [exact Wa|]. unfold sp_res. cbn [sp_axes sp_cps sp_weights]. split; [now rewrite Lc|]. destruct ws; auto. destruct Hw as [Hw _]. now rewrite Hw.
      + cbn [sp_weights]. destruct ws; auto. apply Hw. }
  destruct (sp_weights s) as [ws|] eqn:Ew; cbn [sp_axes sp_weights].
  - assert (length ws = length (sp_cps s)) as Lw. { destruct W as (_ & W2 & W3). rewrite Ew in W3. congruence. }
    destruct (weights_positive _ _ _ ws Cm Lw Pw) as [P' L']. split; [unfold axes'; now rewrite E2|]. split; [|split; [easy|]].
    + apply Sd; [| |now split].
      * unfold projected. apply Forall_map, Forall_forall. intros [w P] Hin. cbn [fst snd]. rewrite map_length. apply in_combine_r in Hin. specialize (Fg dim (weighted ws (sp_cps s))). rewrite Forall_forall in Fg. now apply Fg.
      * unfold projected. rewrite map_length, combine_length, Lg, L'. lia.
    + intros us d D Hd.
      rewrite (rational_split axes' (projected _ _) _ (combined (dense g) dim (weighted ws (sp_cps s))) (combined (dense g) 1 (map (fun w => [w]) ws)));
        [|intros i; apply nth_projected; auto; now rewrite L', Lg|apply nth_hd].
      assert (s = Spl (sp_axes s) (sp_cps s) (Some ws)) as Es by (destruct s; cbn in *; now rewrite Ew).
      transitivity (sp_value (Spl (sp_axes s) (sp_cps s) (Some ws)) us d); [|now rewrite <- Es].
      rewrite (rational_split _ (sp_cps s) ws (weighted ws (sp_cps s)) (map (fun w => [w]) ws)); [|intros i; symmetry; now apply nth_weighted|intros i; now rewrite nth_singletons].
      rewrite !V; auto; [now rewrite map_length|]. unfold weighted. rewrite map_length, combine_length. lia.
  - split; [unfold axes'; now rewrite E2|]. split; [|split; [easy|]].
    + apply Sd; auto.
    + intros us d D Hd. rewrite V by auto. assert (s = Spl (sp_axes s) (sp_cps s) None) as Es by (destruct s; cbn in *; now rewrite Ew). now rewrite <- Es.
Qed.
