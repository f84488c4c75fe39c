(** The volume is exact and depends on the geometry only; a rule with the
    assumed exactness. *)
From Coq Require Import List Arith ZArith Lia Bool QArith Qcanon Sorted Permutation.
From Verif Require Import Base BaseRadix BaseSort BaseQc S_Grid S_Spline P_Spline S_Value P_Value S_Knots S_Pieces P_Pieces S_Deriv P_Deriv M_Core M_Integrate S_Integrate P_Integrate P_View P_IntWitness S_Exact P_Poly P_Exact.
Import ListNotations.
Local Open Scope list_scope.
Local Open Scope nat_scope.

Lemma element_pairs knots e : Forall (StronglySorted Qclt) knots -> In e (elements knots) -> Forall (fun iv => (fst iv < snd iv)%Qc) e /\ length e = length knots.
Proof.
  intros F. revert e. induction F as [|us knots S F IH]; intros e He.
  - destruct He as [<-|[]]. split; [constructor|reflexivity].
  - cbn [elements] in He. apply in_flat_map in He as ([a b] & Hab & He). apply in_map_iff in He as (e' & <- & He'). destruct (IH e' He') as [A B]. split; [|cbn [length]; now rewrite B].
    constructor; auto. cbn [fst snd]. eapply pair_sorted; eauto.
Qed.
Lemma knots_sorted axes knots : Forall2 axis_knots axes knots -> Forall (StronglySorted Qclt) knots.
Proof. induction 1 as [|a us axes knots H K IH]; constructor; auto. apply H. Qed.
Lemma element_is_inside axes knots e u : Forall2 axis_knots axes knots -> In e (elements knots) -> within e u -> Forall2 ax_inside axes u /\ Forall2 ax_domain axes u.
Proof.
  intros K. revert e u. induction K as [|a us axes knots Ka K IH]; intros e u He W.
  - destruct He as [<-|[]]. inversion W; subst. split; constructor.
  - cbn [elements] in He. apply in_flat_map in He as ([x y] & Hab & He). apply in_map_iff in He as (e' & <- & He'). inversion W as [|? t ? u' [T1 T2] W']; subst. cbn [fst snd] in *.
    destruct (IH e' u' He' W') as [A B]. apply pair_nth in Hab as (c & Hc & -> & ->). split; constructor; auto.
    + apply (axis_inside a us c); auto.
    + apply (axis_in_domain a us c); auto; now apply Qclt_le_weak.
Qed.
Definition det_degrees (s : spline) : list nat := map (fun a => length (sp_axes s) * ax_degree a - 1) (sp_axes s).
Lemma rules_exact leg s os : exact_rule leg -> Forall (fun o => 0 < o) os -> enough_orders s os -> Forall2 exact1 (det_degrees s) (map (unit_rule leg) os).
Proof.
  intros E Fo H. unfold det_degrees, enough_orders in *. set (n := length (sp_axes s)) in *. clearbody n. revert Fo. induction H as [|a o axes os H F IH]; intros Fo; inversion Fo; subst; cbn [map]; constructor; auto.
  apply unit_exact; auto. lia.
Qed.
Lemma rules_interior leg os : gaussian leg -> Forall (fun o => 0 < o) os -> Forall interior1 (map (unit_rule leg) os).
Proof. intros G. induction 1; cbn [map]; constructor; auto. now apply unit_interior. Qed.
Lemma default_orders s os : sp_weights s = None -> orders_of s None os -> enough_orders s os.
Proof.
  unfold orders_of, enough_orders. intros -> [_ F]. set (n := length (sp_axes s)) in *. clearbody n. induction F as [|a o axes os H F IH]; constructor; auto. cbv zeta in H. lia.
Qed.
Lemma det_pieces s knots : sp_weights s = None -> Forall2 axis_knots (sp_axes s) knots ->
  pieces (det_degrees s) knots (fun u => det (length (sp_axes s)) (fun d j => sp_deriv s j u d)).
Proof. intros Hw K e He. exact (det_piece s knots e Hw K He). Qed.

Section Volume.
Variables (O : int_oracles) (eps : Qc) (s : spline) (orders : option (list Z)) (os : list nat) (knots : list (list Qc)).
Hypothesis G : gaussian (g_leggauss O).
Hypothesis X : exact_rule (g_leggauss O).
Hypothesis R : rooting (g_sqrt O).
Hypothesis He : (0 < eps)%Qc.
Hypothesis W : sp_wf s.
Hypothesis Hw : sp_weights s = None.
Hypothesis Ne : sp_axes s <> [].
Hypothesis Hd : dim_of (sp_cps s) = length (sp_axes s).
Hypothesis K : Forall2 axis_knots (sp_axes s) knots.
Hypothesis A : Forall (apart eps) knots.
Hypothesis Hc : bezier_axes s \/ knotted s /\ bezier_refinement s (g_required O s) knots.
Hypothesis Ho : orders_of s orders os.
Hypothesis En : enough_orders s os.

Lemma volume_composite : volume O eps s orders = Some (composite (product_rule (map (unit_rule (g_leggauss O)) os)) knots (fun u => det (length (sp_axes s)) (fun d j => sp_deriv s j u d))).
Proof using G R He W Hw Ne Hd K A Hc Ho.
  assert (positive s) as P by (unfold positive; now rewrite Hw).
  destruct (quadrature_some O s orders os G Ne Ho) as (quad & Eq & Pq).
  rewrite (volume_spec O eps s orders knots _ G R He W P Ne ltac:(lia) K A Hc (spline_derivatives s W P) quad Eq). f_equal.
  rewrite (composite_perm _ _ _ _ Pq). unfold measure. now rewrite Hd, Nat.eqb_refl.
Qed.
Lemma volume_exact : forall J, derivatives s J -> exists vs, volume O eps s orders = Some (qsum vs) /\
  Forall2 (fun e v => element_integral e (fun u => det (length (sp_axes s)) (J u)) v) (elements knots) vs.
Proof.
  intros J HJ. rewrite volume_composite. unfold composite. set (F := fun u => det (length (sp_axes s)) (fun d j => sp_deriv s j u d)).
  set (rs := map (unit_rule (g_leggauss O)) os). eexists. split; [reflexivity|].
  pose proof (orders_pos s orders os Ho) as Fo.
  assert (forall e, In e (elements knots) -> element_integral e (fun u => det (length (sp_axes s)) (J u)) (size_of e * qsum (map (fun tw : list Qc * Qc => F (point_of e (fst tw)) * snd tw) (product_rule rs)))%Qc) as H.
  { intros e Hin. destruct (det_pieces s knots Hw K e Hin) as (P & HP & EP). exists P. split.
    - intros u Wu. rewrite <- (EP u Wu). apply det_ext. intros d j Hd' Hj. destruct (element_is_inside _ _ _ _ K Hin Wu) as [I D]. apply deriv_is; auto.
      + unfold positive. now rewrite Hw.
      + lia.
    - destruct (element_pairs knots e (knots_sorted _ _ K) Hin) as [S Le].
      rewrite (qsum_ext _ (fun tw : list Qc * Qc => P (point_of e (fst tw)) * snd tw)%Qc).
      + apply (spoly_integral (det_degrees s)); auto.
        * now apply rules_exact.
        * now apply rules_interior.
        * rewrite Le. unfold det_degrees. rewrite map_length. symmetry. exact (Forall2_len _ _ _ K).
      + intros [t w] Ht. f_equal. cbn [fst]. unfold F. rewrite (EP (point_of e t)); auto. destruct (product_interior rs t w) as [U Lt]; auto; [now apply rules_interior|].
        apply (within_point knots); auto; [now apply (knots_sorted (sp_axes s))|]. rewrite Lt. unfold rs. rewrite map_length. destruct Ho as [Lo _]. rewrite Lo. exact (Forall2_len _ _ _ K). }
  clear - H. induction (elements knots) as [|e l IH]; cbn [map]; constructor; [apply H; now left|]. apply IH. intros; apply H; now right.
Qed.
End Volume.

(** * Common refinements *)
Lemma add_knot x us : StronglySorted Qclt us -> us <> [] -> (hd 0%Qc us <= x)%Qc -> (x <= last us 0%Qc)%Qc -> exists ms, StronglySorted Qclt ms /\ refines us ms /\ In x ms.
Proof.
  intros S. induction S as [|a us S IH F]; intros N H1 H2; [contradiction|]. cbn [hd] in H1. destruct (Qc_eq_dec a x) as [->|Na].
  - exists (x :: us). split; [now constructor|]. split; [|now left]. split; [apply incl_refl|auto].
  - apply Qcle_lt_or_eq in H1 as [H1|H1]; [|contradiction]. destruct us as [|b us].
    { cbn [last] in H2. exfalso. exact (Qclt_not_le _ _ H1 H2). }
    destruct (Qclt_le_dec x b) as [L|L].
    + exists (a :: x :: b :: us). inversion F as [|? ? Hab F']; subst. split; [|split].
      * constructor; [|constructor; [auto|constructor; auto]]. constructor; auto. inversion S as [|? ? _ Fb]; subst. constructor; auto. eapply Forall_impl; [|exact Fb]. intros y Hy. eapply Qclt_trans; eauto.
      * split; [|split; reflexivity]. intros y [<-|Hy]; [now left|right; now right].
      * right. now left.
    + destruct IH as (ms & Sm & (I & Hh & Hl) & Hx); auto; [discriminate|]. exists (a :: ms). split; [|split].
      * constructor; auto. destruct ms as [|m ms]; [contradiction|]. cbn [hd] in Hh. subst m. inversion F as [|? ? Hab F']; subst. constructor; auto. inversion Sm as [|? ? _ Fm]; subst. eapply Forall_impl; [|exact Fm].
        intros y Hy. eapply Qclt_trans; eauto.
      * split; [|split; [reflexivity|]]. { intros y [<-|Hy]; [now left|right; now apply I]. }
        destruct ms as [|m ms]; [contradiction|]. exact Hl.
      * now right.
Qed.
Lemma refines_trans a b c : refines a b -> refines b c -> refines a c.
Proof. intros (A & B & C) (D & E & F). split; [eapply incl_tran; eauto|]. split; congruence. Qed.
Lemma add_knots xs : forall us, StronglySorted Qclt us -> us <> [] -> (forall x, In x xs -> (hd 0%Qc us <= x)%Qc /\ (x <= last us 0%Qc)%Qc) -> exists ms, StronglySorted Qclt ms /\ refines us ms /\ incl xs ms.
Proof.
  induction xs as [|x xs IH]; intros us S N H.
  - exists us. split; auto. split; [split; [apply incl_refl|auto]|]. intros y [].
  - destruct (H x (or_introl eq_refl)) as [H1 H2]. destruct (add_knot x us S N H1 H2) as (ms & Sm & Rm & Hx). destruct (IH ms Sm) as (ms' & Sm' & Rm' & Hi).
    + intros ->. contradiction.
    + destruct Rm as (_ & <- & <-). intros y Hy. apply H. now right.
    + exists ms'. split; auto. split; [eapply refines_trans; eauto|]. intros y [<-|Hy]; auto. now apply Rm'.
Qed.
Lemma sorted_bounds us x : StronglySorted Qclt us -> In x us -> (hd 0%Qc us <= x)%Qc /\ (x <= last us 0%Qc)%Qc.
Proof.
  intros S. induction S as [|a us S IH F]; intros Hx; [contradiction|]. cbn [hd]. rewrite Forall_forall in F. split.
  - destruct Hx as [<-|Hx]; [apply Qcle_refl|]. apply Qclt_le_weak. now apply F.
  - destruct us as [|b us]; [destruct Hx as [<-|[]]; apply Qcle_refl|]. change (last (a :: b :: us) 0%Qc) with (last (b :: us) 0%Qc). destruct Hx as [<-|Hx]; [|now apply IH].
    apply Qclt_le_weak. apply F. apply last_in. discriminate.
Qed.
Lemma common_refinement us us' : StronglySorted Qclt us -> StronglySorted Qclt us' -> us <> [] -> us' <> [] -> hd 0%Qc us = hd 0%Qc us' -> last us 0%Qc = last us' 0%Qc ->
  exists ms, StronglySorted Qclt ms /\ refines us ms /\ refines us' ms.
Proof.
  intros S S' N N' Hh Hl. destruct (add_knots us' us S N) as (ms & Sm & Rm & I).
  - intros x Hx. rewrite Hh, Hl. now apply sorted_bounds.
  - exists ms. split; auto. split; auto. destruct Rm as (_ & E1 & E2). split; auto. split; congruence.
Qed.
Lemma axis_hd_last a us : axis_knots a us -> us <> [] /\ hd 0%Qc us = ax_lower a /\ last us 0%Qc = ax_upper a.
Proof.
  intros H. destruct (axis_ends a us H) as (N & E1 & E2). split; auto. split.
  - rewrite <- E1. now destruct us.
  - rewrite <- E2. clear - N. induction us as [|x us IH]; [contradiction|]. destruct us as [|y us]; [reflexivity|]. change (last (x :: y :: us) 0%Qc) with (last (y :: us) 0%Qc). rewrite IH by discriminate.
    cbn [length]. replace (S (length us) - 1) with (length us) by lia. replace (S (S (length us)) - 1) with (S (length us)) by lia. reflexivity.
Qed.
Definition finer (us us' : list Qc) : Prop := StronglySorted Qclt us /\ StronglySorted Qclt us' /\ us <> [] /\ refines us us'.
Lemma common_knots axes axes' knots knots' : Forall2 axis_knots axes knots -> Forall2 axis_knots axes' knots' ->
  Forall2 (fun a a' => ax_lower a = ax_lower a' /\ ax_upper a = ax_upper a') axes axes' -> exists merged, Forall2 finer knots merged /\ Forall2 finer knots' merged.
Proof.
  intros K K' E. revert knots knots' K K'. induction E as [|a a' axes axes' [E1 E2] E IH]; intros knots knots' K K'.
  - inversion K; inversion K'; subst. exists []. split; constructor.
  - inversion K as [|? us ? knots0 Ka K0]; subst. inversion K' as [|? us' ? knots0' Ka' K0']; subst. destruct (IH _ _ K0 K0') as (merged & F & F').
    destruct (axis_hd_last a us Ka) as (N & A1 & A2). destruct (axis_hd_last a' us' Ka') as (N' & A1' & A2').
    destruct (common_refinement us us') as (ms & Sm & R & R'); auto; try congruence; [apply Ka|apply Ka'|].
    exists (ms :: merged). split; constructor; auto; (split; [|split; [|split]]; auto); [apply Ka|apply Ka'].
Qed.
Lemma same_deriv s s' u j d : sp_wf s -> sp_wf s' -> sp_weights s = None -> sp_weights s' = None -> same_map s s' ->
  Forall2 ax_inside (sp_axes s) u -> Forall2 ax_inside (sp_axes s') u -> Forall2 ax_domain (sp_axes s) u -> Forall2 ax_domain (sp_axes s') u ->
  j < length (sp_axes s) -> d < dim_of (sp_cps s) -> sp_deriv s j u d = sp_deriv s' j u d.
Proof.
  intros W W' Hw Hw' (El & Ed & V) I I' D D' Hj Hd. assert (positive s) as P by (unfold positive; now rewrite Hw). assert (positive s') as P' by (unfold positive; now rewrite Hw').
  pose proof (Forall2_len _ _ _ El) as La. pose proof (Forall2_len _ _ _ I) as Lu.
  pose proof (spline_derivatives s W P u I d j Hd Hj) as H. pose proof (spline_derivatives s' W' P' u I' d j ltac:(lia) ltac:(lia)) as H'.
  assert (ax_wf (nth j (sp_axes s) (BezierAxis 0))) as Wj. { destruct W as [W _]. rewrite Forall_forall in W. apply W. now apply nth_In. }
  assert (ax_inside (nth j (sp_axes s) (BezierAxis 0)) (nth j u 0%Qc)) as Ij.
  { clear - I Hj. revert j Hj. induction I as [|x y axes us H I IH]; intros [|j] Hj; cbn in *; try lia; auto. apply IH. lia. }
  destruct (inside_near _ _ Ij Wj) as (r & Hr & N). eapply (deriv_unique _ _ _ _ _ r); [exact Hr| |exact H|exact H'].
  intros y Hy. cbv beta. apply V; auto. apply domain_put; auto. lia.
Qed.
Lemma exact_for_all leg ks : gaussian leg -> exact_rule leg -> forall ks', length ks' = length ks -> exists rs, Forall2 exact1 ks rs /\ Forall2 exact1 ks' rs /\ Forall interior1 rs.
Proof.
  intros G X. induction ks as [|k ks IH]; intros [|k' ks'] L; try discriminate.
  - exists []. repeat split; constructor.
  - injection L as L. destruct (IH ks' L) as (rs & A & B & C). exists (unit_rule leg (S (k + k')) :: rs). repeat split; constructor; auto; try (apply unit_exact; auto; lia). apply unit_interior; auto. lia.
Qed.
Lemma same_volume O O' eps eps' s s' orders orders' os os' knots knots' :
  gaussian (g_leggauss O) -> exact_rule (g_leggauss O) -> rooting (g_sqrt O) -> (0 < eps)%Qc ->
  gaussian (g_leggauss O') -> exact_rule (g_leggauss O') -> rooting (g_sqrt O') -> (0 < eps')%Qc ->
  sp_wf s -> sp_weights s = None -> sp_axes s <> [] -> dim_of (sp_cps s) = length (sp_axes s) ->
  Forall2 axis_knots (sp_axes s) knots -> Forall (apart eps) knots -> bezier_axes s \/ knotted s /\ bezier_refinement s (g_required O s) knots ->
  orders_of s orders os -> enough_orders s os ->
  sp_wf s' -> sp_weights s' = None ->
  Forall2 axis_knots (sp_axes s') knots' -> Forall (apart eps') knots' -> bezier_axes s' \/ knotted s' /\ bezier_refinement s' (g_required O' s') knots' ->
  orders_of s' orders' os' -> enough_orders s' os' ->
  same_map s s' -> exists v, volume O eps s orders = Some v /\ volume O' eps' s' orders' = Some v.
Proof.
  intros G X R He G' X' R' He' W Hw Ne Hd K A Hc Ho En W' Hw' K' A' Hc' Ho' En' M. pose proof M as (El & Ed & V). pose proof (Forall2_len _ _ _ El) as La.
  assert (sp_axes s' <> []) as Ne'. { destruct (sp_axes s'); [|discriminate]. destruct (sp_axes s); [contradiction|discriminate La]. }
  rewrite (volume_composite O eps s orders os knots) by auto. rewrite (volume_composite O' eps' s' orders' os' knots') by (auto; lia). eexists. split; [reflexivity|]. f_equal. symmetry.
  destruct (common_knots _ _ _ _ K K' El) as (merged & F & F').
  destruct (exact_for_all (g_leggauss O) (det_degrees s) G X (det_degrees s')) as (rs & E1 & E2 & I). { unfold det_degrees. now rewrite !map_length. }
  pose proof (orders_pos _ _ _ Ho) as Fo. pose proof (orders_pos _ _ _ Ho') as Fo'.
  rewrite (same_integral (det_degrees s) _ rs knots merged); auto.
  - rewrite (same_integral (det_degrees s') (map (unit_rule (g_leggauss O')) os') rs knots' merged); auto.
    + apply composite_ext; auto.
      * clear - F. induction F as [|? ? ? ? H F IH]; constructor; auto. apply H.
      * rewrite <- (Forall2_len _ _ _ F). rewrite <- (Forall2_len _ _ _ E1). unfold det_degrees. rewrite map_length. exact (Forall2_len _ _ _ K).
      * intros e u Hin Wu. destruct (refine_within knots merged e u F Hin Wu) as (e1 & H1 & W1). destruct (refine_within knots' merged e u F' Hin Wu) as (e2 & H2 & W2).
        destruct (element_is_inside _ _ _ _ K H1 W1) as [I1 D1]. destruct (element_is_inside _ _ _ _ K' H2 W2) as [I2 D2].
        rewrite <- La. apply det_ext. intros d j Hd' Hj. apply same_deriv; auto. lia.
    + now apply rules_exact.
    + now apply rules_interior.
    + unfold det_degrees. rewrite map_length. symmetry. exact (Forall2_len _ _ _ K').
    + now apply det_pieces.
  - now apply rules_exact.
  - now apply rules_interior.
  - unfold det_degrees. rewrite map_length. symmetry. exact (Forall2_len _ _ _ K).
  - now apply det_pieces.
Qed.

(** * A rule of the assumed exactness *)
Lemma pdiff_padd c d a b : pdiff (padd c d) a b = (pdiff c a b + pdiff d a b)%Qc.
Proof.
  rewrite <- (pdiff_der (padd c d) (padd (antideriv c) (antideriv d))).
  - unfold pdiff. rewrite !peval_padd. ring.
  - intros x. now rewrite pder_padd, !pder_antideriv, peval_padd.
Qed.
Definition others (x : Qc) (xs : list Qc) : list Qc := filter (fun y => negb (qeqb y x)) xs.
Definition lagrange (xs : list Qc) (x : Qc) : list Qc :=
  fold_right (fun y c => pmul [- y / (x - y); 1 / (x - y)]%Qc c) [1%Qc] (others x xs).
Lemma pmul_length a b d : d <> [] -> length (pmul [a; b] d) <= S (length d) /\ pmul [a; b] d <> [].
Proof.
  intros H. split.
  - destruct (length_pmul [a; b] d) as [L|L]; [discriminate| |contradiction]. cbn [length] in L. lia.
  - intros Z. destruct d as [|e d]; [contradiction|]. cbn in Z. discriminate Z.
Qed.
Lemma lagrange_length x xs : length (lagrange xs x) <= S (length (others x xs)).
Proof.
  unfold lagrange. assert (forall l, length (fold_right (fun y c => pmul [- y / (x - y); 1 / (x - y)]%Qc c) [1%Qc] l) <= S (length l) /\ fold_right (fun y c => pmul [- y / (x - y); 1 / (x - y)]%Qc c) [1%Qc] l <> []) as H; [|apply H].
  induction l as [|y l [IH1 IH2]]; [split; [cbn; lia|discriminate]|]. cbn [fold_right length]. destruct (pmul_length (- y / (x - y))%Qc (1 / (x - y))%Qc _ IH2) as [A B]. split; auto. lia.
Qed.
Lemma lagrange_value x xs z : peval (lagrange xs x) z = fold_right (fun y p => (z - y) / (x - y) * p)%Qc 1%Qc (others x xs).
Proof.
  unfold lagrange. induction (others x xs) as [|y l IH]; [cbn; ring|]. cbn [fold_right]. rewrite peval_pmul, IH. cbn [peval]. unfold Qcdiv. ring.
Qed.
Lemma others_in x xs y : In y (others x xs) <-> In y xs /\ y <> x.
Proof. unfold others. rewrite filter_In. destruct (qeqb_spec y x) as [E|E]; cbn; intuition congruence. Qed.
Lemma others_length x xs : NoDup xs -> In x xs -> S (length (others x xs)) = length xs.
Proof.
  induction xs as [|y xs IH]; intros N Hx; [contradiction|]. inversion N as [|? ? Hn N']; subst. unfold others. cbn [filter]. destruct (qeqb_spec y x) as [->|E]; cbn [negb].
  - cbn [length]. f_equal. fold (others x xs). clear IH N Hx N'. induction xs as [|y xs IH]; [reflexivity|]. unfold others. cbn [filter]. destruct (qeqb_spec y x) as [->|E]; cbn [negb]; [exfalso; apply Hn; now left|].
    cbn [length]. f_equal. apply IH. intros H. apply Hn. now right.
  - cbn [length]. f_equal. apply IH; auto. destruct Hx as [->|Hx]; [contradiction|auto].
Qed.
Lemma lagrange_own x xs : peval (lagrange xs x) x = 1%Qc.
Proof.
  rewrite lagrange_value. assert (forall y, In y (others x xs) -> y <> x) as H by (intros y Hy; now apply others_in in Hy). induction (others x xs) as [|y l IH]; [reflexivity|]. cbn [fold_right]. rewrite IH by (intros; apply H; now right).
  field. intros Z. apply (H y (or_introl eq_refl)). rewrite <- (Qcplus_0_l y), <- Z. ring.
Qed.
Lemma lagrange_other x xs z : In z xs -> z <> x -> peval (lagrange xs x) z = 0%Qc.
Proof.
  intros Hz N. rewrite lagrange_value. assert (In z (others x xs)) as H by (apply others_in; auto). induction (others x xs) as [|y l IH]; [contradiction|]. cbn [fold_right]. destruct H as [->|H].
  - unfold Qcdiv. ring.
  - rewrite IH by auto. ring.
Qed.
Definition interpolant (xs : list Qc) (c : list Qc) : list Qc := fold_right padd [] (map (fun x => pscale (peval c x) (lagrange xs x)) xs).
Lemma padd_all_value (l : list (list Qc)) z : peval (fold_right padd [] l) z = qsum (map (fun c => peval c z) l).
Proof. induction l as [|c l IH]; [reflexivity|]. cbn [fold_right map qsum]. now rewrite peval_padd, IH. Qed.
Lemma interpolates xs c : NoDup xs -> length c <= length xs -> forall z, peval (interpolant xs c) z = peval c z.
Proof.
  intros N L. set (d := padd (interpolant xs c) (pscale (- (1))%Qc c)).
  assert (Forall (fun a => a = 0%Qc) d) as Z.
  { apply (roots_zero (length xs) d xs); auto.
    - unfold d. rewrite length_padd. unfold pscale at 1. rewrite map_length. apply Nat.max_lub; auto. unfold interpolant.
      assert (forall l, (forall q, In q l -> length q <= length xs) -> length (fold_right padd [] l) <= length xs) as H.
      { induction l as [|q l IH]; intros H; [cbn; lia|]. cbn [fold_right]. rewrite length_padd. apply Nat.max_lub; [apply H; now left|]. apply IH. intros; apply H; now right. }
      apply H. intros q Hq. apply in_map_iff in Hq as (x & <- & Hx). unfold pscale. rewrite map_length. rewrite <- (others_length x xs N Hx). apply lagrange_length.
    - intros z Hz. unfold d. rewrite peval_padd, peval_pscale. unfold interpolant. rewrite padd_all_value, map_map.
      assert (forall l, NoDup l -> incl l xs -> qsum (map (fun x => peval (pscale (peval c x) (lagrange xs x)) z) l) = if existsb (qeqb z) l then peval c z else 0%Qc) as H.
      { induction l as [|y l IH]; intros Nl Il; [reflexivity|]. inversion Nl as [|? ? Hn Nl']; subst. cbn [map qsum fold_right existsb]. rewrite peval_pscale. change (fold_right Qcplus 0%Qc (map (fun x => peval (pscale (peval c x) (lagrange xs x)) z) l)) with (qsum (map (fun x => peval (pscale (peval c x) (lagrange xs x)) z) l)).
        rewrite IH by (auto; intros t Ht; apply Il; now right). destruct (qeqb_spec z y) as [->|E]; cbn [orb].
        - rewrite lagrange_own. replace (existsb (qeqb y) l) with false; [ring|]. symmetry. apply Bool.not_true_is_false. intros X. apply existsb_exists in X as (t & Ht & E). destruct (qeqb_spec y t) as [->|]; [contradiction|discriminate].
        - rewrite lagrange_other by auto. ring. }
      rewrite H by (auto; apply incl_refl). replace (existsb (qeqb z) xs) with true; [ring|]. symmetry. apply existsb_exists. exists z. split; auto. destruct (qeqb_spec z z); auto. }
  intros z. pose proof (peval_zero d Z z) as E. unfold d in E. rewrite peval_padd, peval_pscale in E. rewrite <- (Qcplus_0_l (peval c z)), <- E. ring.
Qed.
Definition rule_points (n : nat) : list Qc := map (fun i => inj (2 * i + 1) / inj (2 * n) - 1)%Qc (seq 0 (2 * n)).
Definition full_rule (n : nat) : list Qc * list Qc :=
  (rule_points n, map (fun x => pdiff (lagrange (rule_points n) x) (- (1)) 1) (rule_points n)).
Lemma rule_points_ok n : 0 < n -> NoDup (rule_points n) /\ Forall (fun x => (- (1) < x)%Qc /\ (x < 1)%Qc) (rule_points n).
Proof.
  intros Hn. assert (0 < inj (2 * n))%Qc as P by (apply BaseQc.inj_pos; lia). set (q := inj (2 * n)) in *. split.
  - unfold rule_points. apply FinFun.Injective_map_NoDup; [|apply seq_NoDup]. intros i j E. fold q in E.
    assert (inj (2 * i + 1) = inj (2 * j + 1)) as E'.
    { assert (forall k, (inj (2 * k + 1) / q - 1 + 1) * q = inj (2 * k + 1))%Qc as X by (intros k; field; now apply pos_ne). rewrite <- (X i), <- (X j), E. reflexivity. }
    apply inj_inj in E'. lia.
  - apply Forall_forall. intros x H. unfold rule_points in H. apply in_map_iff in H as (i & <- & Hi). apply in_seq in Hi. fold q.
    assert (0 < inj (2 * i + 1))%Qc as Pi by (apply BaseQc.inj_pos; lia). assert (inj (2 * i + 1) < q + q)%Qc as Li by (unfold q; rewrite <- inj_add; apply inj_lt; lia).
    set (t := inj (2 * i + 1)) in *. assert (t / q * q = t)%Qc as E by (field; now apply pos_ne). set (w := (t / q)%Qc) in *. clearbody t q w. subst t.
    assert (0 < w)%Qc as Pw. { destruct (Qclt_le_dec 0 w) as [|L]; auto. exfalso. apply (Qclt_not_le _ _ Pi). pose proof (Qc_mul_nonneg (- w) q). clear - L P H. qnra. }
    assert (w < 1 + 1)%Qc as Lw. { destruct (Qclt_le_dec w (1 + 1)) as [|L]; auto. exfalso. apply (Qclt_not_le _ _ Li). pose proof (Qc_mul_nonneg (w - (1 + 1)) q). clear - L P H. qnra. }
    clear - Pw Lw. split; qlra.
Qed.
Lemma full_rule_exact : exact_rule full_rule.
Proof.
  intros n c Hn Lc. destruct (rule_points_ok n Hn) as [N _]. unfold full_rule. cbn [fst snd]. change (peval (antideriv c) 1 - peval (antideriv c) (- (1)))%Qc with (pdiff c (- (1)) 1).
  set (xs := rule_points n) in *. rewrite <- (map_id xs) at 1. rewrite combine_map2, map_map. cbn [fst snd].
  rewrite <- (pdiff_ext (interpolant xs c) c) by (apply interpolates; auto; unfold xs, rule_points; rewrite map_length, seq_length; lia).
  unfold interpolant.
  assert (forall l, qsum (map (fun x => peval c x * pdiff (lagrange xs x) (- (1)) 1)%Qc l) = pdiff (fold_right padd [] (map (fun x => pscale (peval c x) (lagrange xs x)) l)) (- (1)) 1) as H; [|apply H].
  induction l as [|x l IH]; [apply Qc_is_canon; reflexivity|]. cbn [map fold_right qsum]. rewrite pdiff_padd, pdiff_scale. f_equal. exact IH.
Qed.
Lemma full_rule_ok : gaussian full_rule.
Proof.
  intros n Hn. destruct (rule_points_ok n Hn) as [N F]. pose proof (full_rule_exact n [1%Qc] Hn ltac:(cbn; lia)) as E. unfold full_rule in *. cbn [fst snd] in *. split; [|split; [|split]]; auto.
  - unfold rule_points. destruct n; [lia|discriminate].
  - now rewrite map_length.
  - set (xs := rule_points n) in *. set (f := fun x => pdiff (lagrange xs x) (- (1)) 1) in *. rewrite <- (map_id xs) in E at 1. rewrite combine_map2, map_map in E. cbn [fst snd] in E.
    rewrite (qsum_ext _ f) in E by (intros; cbn [peval]; ring). rewrite E. apply Qc_is_canon. reflexivity.
Qed.
Definition exact_example : int_oracles := IntOracles full_rule root insert_by_matrix (fun s => s).

(** * Signs *)
Lemma product_weights rs t w : Forall (Forall (fun tw => (0 <= snd tw)%Qc)) rs -> In (t, w) (product_rule rs) -> (0 <= w)%Qc.
Proof.
  intros F. revert t w. induction F as [|r rs Fr F IH]; intros t w H.
  - destruct H as [E|[]]. injection E as _ <-. discriminate.
  - cbn [product_rule] in H. apply in_flat_map in H as (xw & Hx & H). apply in_map_iff in H as ([t' w'] & E & H). injection E as _ <-. apply Qc_mul_nonneg; [|now apply (IH t')].
    rewrite Forall_forall in Fr. now apply Fr.
Qed.
Lemma unit_weights leg o : gaussian leg -> positive_rule leg -> 0 < o -> Forall (fun tw => (0 <= snd tw)%Qc) (unit_rule leg o).
Proof.
  intros G P Ho. apply Forall_forall. intros tw H. unfold unit_rule in H. apply in_map_iff in H as ([x w] & <- & H). cbn [snd]. apply in_combine_r in H. specialize (P o Ho). rewrite Forall_forall in P.
  apply Qc_mul_nonneg; [apply Qclt_le_weak; now apply P|discriminate].
Qed.
Lemma composite_nonneg leg os axes knots F : gaussian leg -> positive_rule leg -> Forall (fun o => 0 < o) os -> length os = length knots -> Forall2 axis_knots axes knots ->
  (forall u, Forall2 ax_inside axes u -> (0 <= F u)%Qc) -> (0 <= composite (product_rule (map (unit_rule leg) os)) knots F)%Qc.
Proof.
  intros G P Fo Lo K H. unfold composite. apply qsum_nonneg. intros e He. pose proof (knots_sorted _ _ K) as S. apply Qc_mul_nonneg.
  - destruct (element_pairs knots e S He) as [Fe _]. clear - Fe. induction Fe as [|[a b] e L Fe IH]; [discriminate|]. change (size_of ((a, b) :: e)) with ((b - a) * size_of e)%Qc. cbn [fst snd] in L.
    apply Qc_mul_nonneg; auto. qlra.
  - apply qsum_nonneg. intros [t w] Ht. cbn [fst snd]. apply Qc_mul_nonneg.
    + destruct (product_interior _ t w (rules_interior leg os G Fo) Ht) as [U Lt]. rewrite map_length in Lt. apply H. apply (element_is_inside axes knots e); auto. apply (within_point knots); auto. lia.
    + apply (product_weights (map (unit_rule leg) os) t); auto. clear - G P Fo. induction Fo; cbn [map]; constructor; auto. now apply unit_weights.
Qed.
