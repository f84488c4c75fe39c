(** Functions of one parameter that are splines with given knots and smoothness;
    basis functions are among them; interpolation at suitable points is unique. *)
From Coq Require Import List Arith Lia Bool QArith Qcanon Sorted.
From Verif Require Import Base BaseQc S_Spline S_Value S_Knots S_Exact S_Deriv S_Integrate P_Basis P_Spline P_Bezier P_Pieces P_Deriv P_Integrate P_View P_Poly P_Exact P_Zeros P_SplineSpace P_Smooth.
Import ListNotations.
Local Open Scope list_scope.
Local Open Scope nat_scope.

(** * Closure *)
Lemma contact_refl k z c : contact k z c c.
Proof. exists []. intros x. cbn. ring. Qed.
Lemma contact_add k z c d c' d' : contact k z c d -> contact k z c' d' -> contact k z (padd c c') (padd d d').
Proof.
  intros (g & E) (g' & E'). exists (padd g g'). intros x. rewrite !peval_padd. replace (peval c x + peval c' x - (peval d x + peval d' x))%Qc with (peval c x - peval d x + (peval c' x - peval d' x))%Qc by ring. rewrite E, E'. ring.
Qed.
Lemma contact_scale k z a c d : contact k z c d -> contact k z (pscale a c) (pscale a d).
Proof. intros (g & E). exists (pscale a g). intros x. rewrite !peval_pscale. replace (a * peval c x - a * peval d x)%Qc with (a * (peval c x - peval d x))%Qc by ring. rewrite E. ring. Qed.
Lemma contact_mul k z c d c' d' : contact k z c d -> contact k z c' d' -> contact k z (pmul c c') (pmul d d').
Proof.
  intros (g & E) (g' & E'). exists (padd (pmul c g') (pmul d' g)). intros x. rewrite peval_padd, !peval_pmul.
  replace (peval c x * peval c' x - peval d x * peval d' x)%Qc with (peval c x * (peval c' x - peval d' x) + peval d' x * (peval c x - peval d x))%Qc by ring. rewrite E, E'. ring.
Qed.
Definition inclass (z : nat -> Qc) (m : nat) (r : nat -> nat) (q : nat) (f : Qc -> Qc) : Prop :=
  exists P : P_Zeros.pieces, (forall c, c < m -> pol q (peval (P c))) /\ joined z P r 0 m /\ forall x c, home z m x c -> f x = peval (P c) x.
Section Class.
Variables (z : nat -> Qc) (m : nat) (r : nat -> nat).
Lemma inclass_ext q f g : (forall x, f x = g x) -> inclass z m r q f -> inclass z m r q g.
Proof. intros E (P & A & B & C). exists P. repeat split; auto. intros x c H. rewrite <- E. auto. Qed.
Lemma inclass_const q a : inclass z m r q (fun _ => a).
Proof. exists (fun _ => [a]). split; [|split]. - intros c _. exists [a]. split; [cbn; lia|reflexivity]. - intros c _ _. apply contact_refl. - intros. cbn. ring. Qed.
Lemma inclass_add q f g : inclass z m r q f -> inclass z m r q g -> inclass z m r q (fun x => f x + g x)%Qc.
Proof.
  intros (P & A & B & C) (P' & A' & B' & C'). exists (fun c => padd (P c) (P' c)). split; [|split].
  - intros c Hc. apply (pol_ext _ (fun x => peval (P c) x + peval (P' c) x)%Qc); [intros; now rewrite peval_padd|]. apply pol_add; auto.
  - intros c H1 H2. apply contact_add; auto.
  - intros x c H. rewrite peval_padd, <- C, <- C'; auto.
Qed.
Lemma inclass_scale q a f : inclass z m r q f -> inclass z m r q (fun x => a * f x)%Qc.
Proof.
  intros (P & A & B & C). exists (fun c => pscale a (P c)). split; [|split].
  - intros c Hc. apply (pol_ext _ (fun x => a * peval (P c) x)%Qc); [intros; now rewrite peval_pscale|]. apply pol_scale; auto.
  - intros c H1 H2. apply contact_scale; auto.
  - intros x c H. rewrite peval_pscale, <- C; auto.
Qed.
Lemma inclass_sum {A} q (f : A -> Qc -> Qc) l : (forall i, In i l -> inclass z m r q (f i)) -> inclass z m r q (fun x => qsum (map (fun i => f i x) l)).
Proof.
  induction l as [|i l IH]; intros H; [exact (inclass_const q 0%Qc)|]. apply (inclass_add q (f i) (fun x => qsum (map (fun i => f i x) l))); [apply H; now left|apply IH; intros; apply H; now right].
Qed.
Lemma inclass_mul q q' f g : inclass z m r q f -> inclass z m r q' g -> inclass z m r (q + q') (fun x => f x * g x)%Qc.
Proof.
  intros (P & A & B & C) (P' & A' & B' & C'). exists (fun c => pmul (P c) (P' c)). split; [|split].
  - intros c Hc. apply (pol_ext _ (fun x => peval (P c) x * peval (P' c) x)%Qc); [intros; now rewrite peval_pmul|]. apply pol_mul; auto.
  - intros c H1 H2. apply contact_mul; auto.
  - intros x c H. rewrite peval_pmul, <- C, <- C'; auto.
Qed.
Lemma inclass_degree q q' f : q <= q' -> inclass z m r q f -> inclass z m r q' f.
Proof. intros H (P & A & B & C). exists P. repeat split; auto. intros c Hc. apply (pol_weaken q); auto. Qed.
Lemma inclass_smooth r' q f : (forall c, 0 < c -> c < m -> r c <= r' c) -> inclass z m r' q f -> inclass z m r q f.
Proof. intros H (P & A & B & C). exists P. repeat split; auto. intros c H1 H2. apply (contact_weaken (r c) (r' c)); auto. Qed.
End Class.

(** * Axes *)
Definition axis_form (a : paxis) (us : list Qc) (ms : list nat) : Prop :=
  StronglySorted Qclt us /\ length us = length ms /\ 2 <= length ms /\ nth 0 ms 0 = ax_degree a + 1 /\ nth (length ms - 1) ms 0 = ax_degree a + 1 /\ Forall (fun k => 0 < k) ms /\
  match a with BezierAxis _ => us = [0; 1]%Qc | KnotAxis _ kv => kv = expand_knots us ms end.
Definition zk (us : list Qc) (c : nat) : Qc := nth c us 0%Qc.
Definition mk (ms : list nat) (c : nat) : nat := nth c ms 0.
Lemma form_knots a us ms : axis_form a us ms -> axis_knots a us.
Proof. intros (SS & L & L2 & M0 & M1 & F & E). split; auto. destruct a as [p|p kv]; auto. exists ms. repeat split; auto. Qed.
Lemma knots_form a us : axis_knots a us -> exists ms, axis_form a us ms.
Proof.
  intros (SS & E). destruct a as [p|p kv].
  - exists [p + 1; p + 1]. subst us. repeat split; auto; cbn [ax_degree]. repeat constructor; lia.
  - destruct E as (m & E & L & L2 & M0 & M1 & F). exists m. repeat split; auto.
Qed.
Lemma start_firstn ms c : c <= length ms -> start (mk ms) c = list_sum (firstn c ms).
Proof. induction c as [|c IH]; intros H; [reflexivity|]. rewrite start_S, IH, firstn_S_sum by lia. reflexivity. Qed.
Lemma form_up a us ms : axis_form a us ms -> rising_knots (zk us) 0 (length us - 1).
Proof. intros (SS & L & L2 & _) c _ Hc. apply sorted_nth; auto; lia. Qed.
Lemma form_count a us ms : axis_form a us ms -> start (mk ms) (length us - 1) = ax_n a.
Proof.
  intros (SS & L & L2 & M0 & M1 & F & E). rewrite L, start_firstn by lia.
  assert (list_sum ms = list_sum (firstn (length ms - 1) ms) + (ax_degree a + 1)) as S'.
  { rewrite <- M1, <- firstn_S_sum by lia. replace (S (length ms - 1)) with (length ms) by lia. now rewrite firstn_all. }
  destruct a as [p|p kv]; cbn [ax_n ax_degree] in *.
  - subst us. cbn in L. destruct ms as [|x [|y [|]]]; try discriminate. cbn in *. lia.
  - subst kv. rewrite expand_length by auto. lia.
Qed.

Section Knot.
Variables (p : nat) (kv us : list Qc) (ms : list nat).
Hypothesis W : axis_form (KnotAxis p kv) us ms.
Let U := kn kv.
Let N := ax_n (KnotAxis p kv).
Definition sp c := start (mk ms) (S c) - 1.
Lemma kn_group c i : c < length ms -> start (mk ms) c <= i -> i < start (mk ms) (S c) -> U i = zk us c.
Proof.
  destruct W as (SS & L & L2 & M0 & M1 & F & E). intros Hc. rewrite !start_firstn by lia. intros H1 H2. unfold U. subst kv. rewrite (kn_nth _ _ 0%Qc).
  - apply expand_nth; auto.
  - rewrite expand_length by auto. pose proof (firstn_sum_le (S c) ms). lia.
Qed.
Lemma U_mono : mono U.
Proof. apply kn_mono. destruct W as (SS & L & L2 & M0 & M1 & F & ->). now apply expand_sorted. Qed.
Lemma mk_pos c : c < length ms -> 0 < mk ms c.
Proof. destruct W as (SS & L & L2 & M0 & M1 & F & E). intros H. rewrite Forall_forall in F. apply F, nth_In; auto. Qed.
Lemma sp_low c : c < length ms -> U (sp c) = zk us c.
Proof. intros H. pose proof (mk_pos c H). apply kn_group; auto; unfold sp; rewrite start_S; lia. Qed.
Lemma sp_high c k : S c < length ms -> sp c < k -> k <= sp (S c) -> U k = zk us (S c).
Proof. intros H H1 H2. pose proof (mk_pos (S c) H). unfold sp in *. rewrite (start_S _ (S c)) in H2. apply kn_group; auto; [lia|]. rewrite (start_S _ (S c)). lia. Qed.
Lemma sp_S c : S c < length ms -> sp (S c) = sp c + mk ms (S c).
Proof. intros H. unfold sp. rewrite (start_S _ (S c)). pose proof (mk_pos c ltac:(lia)). rewrite (start_S _ c). lia. Qed.
Lemma sp_lt c : S c < length ms -> (U (sp c) < U (S (sp c)))%Qc.
Proof.
  intros H. rewrite sp_low by lia. rewrite (sp_high c (S (sp c))); auto; [|rewrite sp_S by auto; pose proof (mk_pos (S c) H); lia].
  destruct W as (SS & L & _). apply sorted_nth; auto; lia.
Qed.
Lemma sp_range c : S c < length ms -> p <= sp c /\ sp c < N.
Proof.
  intros H. pose proof (form_count _ _ _ W) as C. destruct W as (SS & L & L2 & M0 & M1 & F & E). cbn [ax_degree] in *. unfold sp, N. rewrite <- C, L. split.
  - pose proof (start_le (mk ms) 1 (S c) ltac:(lia)) as X. rewrite start_S in X. unfold mk at 2 in X. rewrite M0 in X. change (start (mk ms) 0) with 0 in X. lia.
  - pose proof (start_le (mk ms) (S c) (length ms - 1) ltac:(lia)). pose proof (start_le (mk ms) 1 (S c) ltac:(lia)) as X. rewrite start_S in X. unfold mk at 2 in X. rewrite M0 in X. lia.
Qed.
Lemma home_span x c : home (zk us) (length us - 1) x c -> find_span kv p N x = sp c.
Proof.
  intros (H1 & H2 & H3 & H4). pose proof W as (SS & L & L2 & _). pose proof (form_knots _ _ _ W) as K. pose proof (axis_knot_vector p kv us K) as KV.
  pose proof (sp_range c ltac:(lia)) as [R1 R2]. pose proof (sp_low c ltac:(lia)) as E1. assert (U (S (sp c)) = zk us (S c)) as E2.
  { apply sp_high; try lia. rewrite sp_S by lia. pose proof (mk_pos (S c) ltac:(lia)). lia. }
  apply find_span_unique; auto.
  - split. + eapply Qcle_trans; [apply U_mono, R1|]. now rewrite E1. + eapply Qcle_trans; [exact H3|]. rewrite <- E2. apply U_mono. exact R2.
  - repeat split; auto; fold U.
    + now apply sp_lt; lia. + now rewrite E1.
    + rewrite E2. destruct H4 as [H4|H4]; [now left|]. destruct (Qcle_lt_or_eq _ _ H3) as [X|X]; [now left|]. right. split; auto.
      assert (start (mk ms) (length us - 1) = N) as C by apply (form_count _ _ _ W).
      fold N. rewrite <- C. assert (S (sp c) = N) as Z; [|rewrite C, <- Z; symmetry; exact E2].
      unfold sp. rewrite H4, C. lia.
Qed.
Lemma basis_inclass i : inclass (zk us) (length us - 1) (fun c => p + 1 - mk ms c) p (fun x => ax_fun (KnotAxis p kv) x i) /\
  inclass (zk us) (length us - 1) (fun c => p - mk ms c) (p - 1) (fun x => ax_dfun (KnotAxis p kv) x i).
Proof.
  pose proof W as (SS & L & L2 & _).
  destruct (choice_nat (fun c B => length B <= S p /\ (forall u, basis U (sp c) p i u = peval B u) /\ (forall u, dbasis U (sp c) p i u = peval (pder B) u)) [] (length us - 1)) as (B & HB).
  { intros c _. apply basis_poly. }
  assert (joined (zk us) B (fun c => p + 1 - mk ms c) 0 (length us - 1)) as J.
  { intros c H1 H2. replace c with (S (c - 1)) at 1 2 3 by lia. set (k := c - 1). replace (mk ms (S k)) with (sp (S k) - sp k) by (rewrite sp_S by (unfold k; lia); lia).
    apply (pieces_contact U (sp k) (sp (S k)) (zk us (S k)) U_mono) with (i := i).
    - apply sp_lt. unfold k. lia. - apply sp_lt. unfold k. lia. - rewrite sp_S by (unfold k; lia). lia.
    - intros j. apply sp_high. unfold k. lia.
    - apply HB. unfold k. lia. - replace (S k) with c by (unfold k; lia). apply HB. lia. }
  split.
  - exists B. split; [|split; auto].
    + intros c Hc. exists (B c). split; [apply HB; auto|auto].
    + intros x c H. cbn [ax_fun]. unfold bspline_basis. fold N. rewrite (home_span x c H). apply HB. apply H.
  - exists (der_pieces B). split; [|split].
    + intros c Hc. destruct p as [|p'] eqn:Ep.
      * exists []. split; [cbn; lia|]. intros x. destruct (HB c Hc) as (_ & _ & X). unfold der_pieces. rewrite <- X. reflexivity.
      * replace (S p' - 1) with p' by lia. apply pder_pol. exists (B c). split; [apply HB; auto|auto].
    + intros c H1 H2. replace (p - mk ms c) with (p + 1 - mk ms c - 1) by lia. apply contact_pder'. apply J; auto.
    + intros x c H. cbn [ax_dfun]. fold N. rewrite (home_span x c H). apply HB. apply H.
Qed.
End Knot.
Lemma axis_inclass a us ms i : axis_form a us ms -> i < ax_n a -> inclass (zk us) (length us - 1) (fun c => ax_degree a + 1 - mk ms c) (ax_degree a) (fun x => ax_fun a x i) /\
  inclass (zk us) (length us - 1) (fun c => ax_degree a - mk ms c) (ax_degree a - 1) (fun x => ax_dfun a x i).
Proof.
  intros W Hi. destruct a as [p|p kv]; [|now apply basis_inclass]. destruct W as (_ & _ & _ & _ & _ & _ & ->). cbn [ax_degree length Nat.sub ax_n] in *. destruct (bernstein_pol p i ltac:(lia)) as [(c & L & E) (d & L' & E')]. split.
  - exists (fun _ => c). split; [|split]. + intros k _. exists c. auto. + intros k H1 H2. lia. + intros. apply E.
  - exists (fun _ => d). split; [|split]. + intros k _. exists d. auto. + intros k H1 H2. lia. + intros. apply E'.
Qed.
