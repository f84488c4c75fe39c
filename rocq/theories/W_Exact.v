(** Witnesses and assembly of the theorems of T_Exact. *)
From Coq Require Import List Arith ZArith Lia Bool QArith Qcanon Sorted Permutation.
From Verif Require Import Base BaseQc S_Grid S_Spline P_Spline S_Value P_Value S_Knots S_Pieces S_Deriv P_Deriv M_Core M_Integrate S_Integrate P_View P_IntWitness P_Integrate S_Exact P_Poly P_ExactVol P_Exact.
Import ListNotations.
Local Open Scope list_scope.
Local Open Scope nat_scope.

Definition bow_one : spline := Spl [BezierAxis 2] [[0]; [0]; [1]]%Qc None.

Definition bow_two : spline := Spl [KnotAxis 2 [0; 0; 0; qc 1 2; qc 1 2; 1; 1; 1]%Qc] [[0]; [0]; [qc 1 4]; [qc 1 2]; [1]]%Qc None.

Definition trapezoid : spline := Spl [BezierAxis 1; BezierAxis 1] [[0; 0]; [inj 2; 0]; [0; 1]; [1; 1]]%Qc None.

Definition square_one : spline := Spl [BezierAxis 1; BezierAxis 1] [[0; 0]; [1; 0]; [0; 1]; [1; 1]]%Qc None.

Definition square_turned : spline := Spl [BezierAxis 1; BezierAxis 1] [[1; 0]; [0; 0]; [1; 1]; [0; 1]]%Qc None.

Lemma C68_exact_holds :
  forall O eps s orders os knots J, gaussian (g_leggauss O) -> exact_rule (g_leggauss O) -> rooting (g_sqrt O) -> (0 < eps)%Qc ->
  sp_wf s -> sp_weights s = None -> sp_axes s <> [] -> dim_of (sp_cps s) = length (sp_axes s) ->
  Forall2 axis_knots (sp_axes s) knots -> Forall (apart eps) knots ->
  bezier_axes s \/ knotted s /\ bezier_refinement s (g_required O s) knots ->
  orders_of s orders os -> enough_orders s os -> derivatives s J ->
  exists vs, volume O eps s orders = Some (qsum vs) /\
  Forall2 (fun e v => element_integral e (fun u => det (length (sp_axes s)) (J u)) v) (elements knots) vs.
Proof. intros O eps s orders os knots J G X R He W Hw Ne Hd K A Hc Ho En HJ. exact (volume_exact O eps s orders os knots G X R He W Hw Ne Hd K A Hc Ho En J HJ). Qed.

Lemma C68_default_holds :
  forall s os, sp_weights s = None -> orders_of s None os -> enough_orders s os.
Proof. exact default_orders. Qed.

Lemma C68_unique_holds :
  forall knots e F v w, Forall (StronglySorted Qclt) knots -> In e (elements knots) ->
  element_integral e F v -> element_integral e F w -> v = w.
Proof.
  intros knots e F v w S He (P & EP & HP) (Q & EQ & HQ). apply (box_agree e P Q); auto.
  - now apply (element_pairs knots).
  - intros u W. now rewrite EP, EQ.
Qed.

Lemma C68_degree_holds :
  forall s knots J e, sp_wf s -> sp_weights s = None -> dim_of (sp_cps s) = length (sp_axes s) ->
  Forall2 axis_knots (sp_axes s) knots -> derivatives s J -> In e (elements knots) ->
  exists P, spoly (map (fun a => length (sp_axes s) * ax_degree a - 1) (sp_axes s)) P /\
    forall u, within e u -> det (length (sp_axes s)) (J u) = P u.
Proof.
  intros s knots J e W Hw Hd K HJ He. destruct (det_pieces s knots Hw K e He) as (P & HP & EP). exists P. split; auto. intros u Wu. rewrite <- (EP u Wu).
  apply det_ext. intros d j Hd' Hj. destruct (element_is_inside _ _ _ _ K He Wu) as [I D]. symmetry. apply deriv_is; auto; [|lia]. unfold positive. now rewrite Hw.
Qed.

Lemma C68_representation_holds :
  forall O O' eps eps' s s' orders orders' os os' knots knots',
  gaussian (g_leggauss O) -> exact_rule (g_leggauss O) -> rooting (g_sqrt O) -> (0 < eps)%Qc ->
  gaussian (g_leggauss O') -> exact_rule (g_leggauss O') -> rooting (g_sqrt O') -> (0 < eps')%Qc ->
  sp_wf s -> sp_weights s = None -> sp_axes s <> [] -> dim_of (sp_cps s) = length (sp_axes s) ->
  Forall2 axis_knots (sp_axes s) knots -> Forall (apart eps) knots -> bezier_axes s \/ knotted s /\ bezier_refinement s (g_required O s) knots ->
  orders_of s orders os -> enough_orders s os ->
  sp_wf s' -> sp_weights s' = None ->
  Forall2 axis_knots (sp_axes s') knots' -> Forall (apart eps') knots' -> bezier_axes s' \/ knotted s' /\ bezier_refinement s' (g_required O' s') knots' ->
  orders_of s' orders' os' -> enough_orders s' os' ->
  same_map s s' -> exists v, volume O eps s orders = Some v /\ volume O' eps' s' orders' = Some v.
Proof. exact same_volume. Qed.

Definition wf_bow_two : sp_wf bow_two.
Proof.
  split; [|split; [reflexivity|exact I]]. constructor; [|constructor]. cbn [ax_wf ax_n length Nat.sub]. split; [reflexivity|]. split; [|reflexivity].
  apply P_KnotInsert.nd_sorted. repeat constructor; discriminate.
Qed.

Definition knots_bow : axis_knots (KnotAxis 2 [0; 0; 0; qc 1 2; qc 1 2; 1; 1; 1]%Qc) [0; qc 1 2; 1]%Qc.
Proof. split; [repeat constructor|]. exists [3; 2; 3]. repeat split; try (cbn; lia). repeat constructor. Qed.

Definition bow_same : same_map bow_one bow_two.
Proof.
  split; [constructor; [split; reflexivity|constructor]|]. split; [reflexivity|]. intros us d D Hd. inversion D as [|a u l us' Du D']; subst. inversion D'; subst.
  change (dim_of (sp_cps bow_one)) with 1 in Hd. assert (d = 0) as -> by lia. transitivity (u * u)%Qc.
  - unfold sp_value. cbn -[bernstein]. unfold bernstein. cbn [binom qpow Nat.sub Nat.add]. change (inj 1) with 1%Qc. ring.
  - pose proof wf_bow_two as [W _]. inversion W as [|? ? Wa _]; subst.
    assert (in_domain 2 5 [0; 0; 0; qc 1 2; qc 1 2; 1; 1; 1]%Qc u) as Du' by (split; [exact (proj1 Du)|exact (proj2 Du)]).
    pose proof (find_span_spec _ _ _ u Wa Du') as Sp. cbn [ax_n length Nat.sub] in Sp. symmetry.
    unfold sp_value. cbn -[bspline_basis]. unfold bspline_basis. set (s := find_span _ _ _ _) in *. destruct Sp as (S1 & S2 & S3 & _). clearbody s.
    assert (s = 2 \/ s = 4) as [-> | ->]. { assert (s = 2 \/ s = 3 \/ s = 4) as [->|[->| ->]] by lia; auto. exfalso. discriminate S3. }
    all: unfold kn; cbn [basis Nat.eqb Nat.add last app nth]; unfold Qcdiv.
    all: replace (qc 1 4) with (1 / ((1 + 1) * (1 + 1)))%Qc by (apply Qc_is_canon; reflexivity); replace (qc 1 2) with (1 / (1 + 1))%Qc by (apply Qc_is_canon; reflexivity).
    all: replace (/ (0 - 0))%Qc with 0%Qc by (apply Qc_is_canon; reflexivity); replace (/ (1 - 1))%Qc with 0%Qc by (apply Qc_is_canon; reflexivity).
    all: replace (/ (1 / (1 + 1) - 1 / (1 + 1)))%Qc with 0%Qc by (apply Qc_is_canon; reflexivity).
    all: replace (/ (1 / (1 + 1) - 0))%Qc with (1 + 1)%Qc by (apply Qc_is_canon; reflexivity); replace (/ (1 - 1 / (1 + 1)))%Qc with (1 + 1)%Qc by (apply Qc_is_canon; reflexivity).
    all: field; split; intros Z; discriminate Z.
Qed.

Lemma C68_example_holds :
  gaussian (g_leggauss exact_example) /\ exact_rule (g_leggauss exact_example) /\ rooting (g_sqrt exact_example) /\
  (sp_wf bow_one /\ sp_wf bow_two /\ same_map bow_one bow_two /\ bezier_axes bow_one /\ knotted bow_two /\
   Forall2 axis_knots (sp_axes bow_two) [[0; qc 1 2; 1]]%Qc /\ apart (qc 1 2) [0; qc 1 2; 1]%Qc /\
   bezier_refinement bow_two (g_required exact_example bow_two) [[0; qc 1 2; 1]]%Qc /\
   orders_of bow_two None [2] /\ enough_orders bow_two [2] /\
   volume exact_example (qc 1 2) bow_one None = Some 1%Qc /\ volume exact_example (qc 1 2) bow_two None = Some 1%Qc) /\
  (sp_wf trapezoid /\ orders_of trapezoid None [2; 2] /\ enough_orders trapezoid [1; 1] /\ volume exact_example (qc 1 2) trapezoid None = Some (qc 3 2)).
Proof.
  split; [apply full_rule_ok|]. split; [apply full_rule_exact|]. split; [apply root_ok|]. split.
  - split; [repeat constructor|]. split; [exact wf_bow_two|]. split; [exact bow_same|]. split; [constructor; [eexists; reflexivity|constructor]|]. split; [repeat constructor|].
    split; [constructor; [exact knots_bow|constructor]|].
    split; [intros x y Hx Hy; destruct Hx as [<-|[<-|[<-|[]]]], Hy as [<-|[<-|[<-|[]]]]; auto; right; discriminate|]. split; [|split; [|split; [|split]]].
    + split; [exact wf_bow_two|]. split; [|split; [reflexivity|split; [exact I|reflexivity]]]. exists [([0; qc 1 2; 1]%Qc, [3; 2; 3])]. split; [|reflexivity]. constructor; [|constructor].
      exists 2, [0; 0; 0; qc 1 2; qc 1 2; 1; 1; 1]%Qc. split; [reflexivity|]. split; [reflexivity|]. split; [repeat constructor|]. split; [reflexivity|]. split; [cbn; lia|]. split; [reflexivity|]. split; [reflexivity|].
      intros [|[|[|i]]] Hi; cbn [fst snd length nth] in *; lia.
    + split; [reflexivity|]. constructor; [cbn; lia|constructor].
    + constructor; [cbn; lia|constructor].
    + vm_compute. f_equal. apply Qc_is_canon. reflexivity.
    + vm_compute. f_equal. apply Qc_is_canon. reflexivity.
  - split; [repeat constructor|]. split; [|split].
    + split; [reflexivity|]. repeat (constructor; [cbn; lia|]). constructor.
    + repeat (constructor; [cbn; lia|]). constructor.
    + vm_compute. f_equal. apply Qc_is_canon. reflexivity.
Qed.

Lemma C69_nonnegative_partial_holds :
  forall O eps s orders os knots J, gaussian (g_leggauss O) -> positive_rule (g_leggauss O) -> rooting (g_sqrt O) -> (0 < eps)%Qc ->
  sp_wf s -> positive s -> sp_axes s <> [] -> length (sp_axes s) <= dim_of (sp_cps s) ->
  Forall2 axis_knots (sp_axes s) knots -> Forall (apart eps) knots ->
  bezier_axes s \/ knotted s /\ bezier_refinement s (g_required O s) knots ->
  derivatives s J -> orders_of s orders os ->
  (forall u, Forall2 ax_inside (sp_axes s) u -> (0 <= measure (g_sqrt O) (length (sp_axes s)) (dim_of (sp_cps s)) (J u))%Qc) ->
  exists v, volume O eps s orders = Some v /\ (0 <= v)%Qc.
Proof.
  intros O eps s orders os knots J G Pr R He W P N L K A H D Ho HJ. destruct (quadrature_some O s orders os G N Ho) as (quad & Eq & Pq).
  rewrite (volume_spec O eps s orders knots J G R He W P N L K A H D quad Eq). eexists. split; [reflexivity|]. rewrite (composite_perm _ _ _ _ Pq).
  apply (composite_nonneg (g_leggauss O) os (sp_axes s)); auto; [now apply orders_pos in Ho|]. destruct Ho as [Lo _]. rewrite Lo. exact (Forall2_len _ _ _ K).
Qed.

Lemma C69_embedded_holds :
  forall O eps s orders os knots, gaussian (g_leggauss O) -> positive_rule (g_leggauss O) -> rooting (g_sqrt O) -> (forall x, 0 <= g_sqrt O x)%Qc -> (0 < eps)%Qc ->
  sp_wf s -> positive s -> sp_axes s <> [] -> length (sp_axes s) < dim_of (sp_cps s) ->
  Forall2 axis_knots (sp_axes s) knots -> Forall (apart eps) knots ->
  bezier_axes s \/ knotted s /\ bezier_refinement s (g_required O s) knots ->
  orders_of s orders os ->
  exists v, volume O eps s orders = Some v /\ (0 <= v)%Qc.
Proof.
  intros O eps s orders os knots G Pr R Rn He W P N L K A H Ho. destruct (quadrature_some O s orders os G N Ho) as (quad & Eq & Pq).
  rewrite (volume_spec O eps s orders knots _ G R He W P N ltac:(lia) K A H (spline_derivatives s W P) quad Eq). eexists. split; [reflexivity|]. rewrite (composite_perm _ _ _ _ Pq).
  apply (composite_nonneg (g_leggauss O) os (sp_axes s)); auto; [now apply orders_pos in Ho| |].
  - destruct Ho as [Lo _]. rewrite Lo. exact (Forall2_len _ _ _ K).
  - intros u _. unfold measure. destruct (Nat.eqb_spec (dim_of (sp_cps s)) (length (sp_axes s))); [lia|]. apply Rn.
Qed.

Lemma C69_orientation_refuted_holds :
  forall O eps orders os, gaussian (g_leggauss O) -> rooting (g_sqrt O) -> (0 < eps)%Qc -> (eps < 1)%Qc -> orders_of square_one orders os ->
  sp_wf square_one /\ sp_wf square_turned /\
  (forall u v d, sp_domain square_one [u; v] -> sp_domain square_turned [1 - u; v]%Qc /\ sp_value square_turned [1 - u; v]%Qc d = sp_value square_one [u; v] d) /\
  volume O eps square_one orders = Some 1%Qc /\ volume O eps square_turned orders = Some (- (1))%Qc.
Proof.
  intros O eps orders os G R He He1 Ho.
  assert (forall s, sp_axes s = sp_axes square_one -> sp_weights s = None -> orders_of s orders os) as Hs.
  { intros s E E'. unfold orders_of in *. rewrite E, E'. exact Ho. }
  assert (forall s, sp_axes s = sp_axes square_one -> Forall2 axis_knots (sp_axes s) [[0; 1]; [0; 1]]%Qc) as Kn.
  { intros s ->. repeat constructor. }
  assert (Forall (apart eps) [[0; 1]; [0; 1]]%Qc) as Ap by (constructor; [now apply apart_unit|constructor; [now apply apart_unit|constructor]]).
  split; [repeat constructor|]. split; [repeat constructor|]. split; [|split].
  - intros u v d D. inversion D as [|? ? ? ? [U1 U2] D']; subst. inversion D' as [|? ? ? ? [V1 V2] _]; subst. cbn [ax_lower ax_upper] in *. split.
    + repeat constructor; cbn [ax_lower ax_upper]; auto; clear - U1 U2; qlra.
    + unfold sp_value. cbn -[bernstein]. unfold bernstein, net. cbn -[inj nth]. change (inj 1) with 1%Qc. destruct d as [|[|d]]; cbn [nth]; try ring.
  - rewrite (volume_affine O eps square_one orders os [[0; 1]; [0; 1]]%Qc (fun _ => 0%Qc) (fun d j => if d =? j then 1 else 0)%Qc G R He); auto.
    + repeat constructor.
    + exact I.
    + discriminate.
    + left. repeat constructor; eauto.
    + intros us d D Hd. inversion D as [|? u ? us1 Du D']; subst. inversion D' as [|? v ? us2 Dv D'']; subst. inversion D''; subst. change (dim_of (sp_cps square_one)) with 2 in Hd.
      unfold sp_value. cbn -[bernstein]. unfold bernstein, net. cbn -[inj nth]. change (inj 1) with 1%Qc. destruct d as [|[|d]]; [| |lia]; cbn; ring.
  - rewrite (volume_affine O eps square_turned orders os [[0; 1]; [0; 1]]%Qc (fun d => if d =? 0 then 1 else 0)%Qc (fun d j => if d =? j then (if d =? 0 then - (1) else 1) else 0)%Qc G R He); auto.
    + repeat constructor.
    + exact I.
    + discriminate.
    + left. repeat constructor; eauto.
    + intros us d D Hd. inversion D as [|? u ? us1 Du D']; subst. inversion D' as [|? v ? us2 Dv D'']; subst. inversion D''; subst. change (dim_of (sp_cps square_turned)) with 2 in Hd.
      unfold sp_value. cbn -[bernstein]. unfold bernstein, net. cbn -[inj nth]. change (inj 1) with 1%Qc. destruct d as [|[|d]]; [| |lia]; cbn; ring.
Qed.

Definition square_raised : spline := Spl [BezierAxis 1; BezierAxis 1] [[1; 0; 0]; [0; 0; 0]; [1; 1; 0]; [0; 1; 0]]%Qc None.

Lemma C69_example_holds :
  gaussian (g_leggauss int_example) /\ positive_rule (g_leggauss int_example) /\ rooting (g_sqrt int_example) /\ (forall x, 0 <= g_sqrt int_example x)%Qc /\
  Forall2 axis_knots (sp_axes square_one) [[0; 1]; [0; 1]]%Qc /\ apart (qc 1 2) [0; 1]%Qc /\ bezier_axes square_one /\ orders_of square_one None [2; 2] /\
  derivatives square_one (fun _ d j => if d =? j then 1 else 0)%Qc /\ (0 <= measure (g_sqrt int_example) 2 2 (fun d j => if d =? j then 1 else 0))%Qc /\
  sp_wf square_raised /\ bezier_axes square_raised /\ length (sp_axes square_raised) < dim_of (sp_cps square_raised) /\ orders_of square_raised None [2; 2] /\
  volume int_example (qc 1 2) square_raised None = Some 1%Qc.
Proof.
  split; [apply int_example_ok|]. split; [|split; [apply int_example_ok|split; [exact root_nonneg|]]].
  - intros n Hn. change (Forall (fun w => (0 < w)%Qc) (repeat (inj 2 / inj n)%Qc n)). apply Forall_forall. intros x H. apply repeat_spec in H. subst x. unfold Qcdiv. apply Qc_mul_pos; [reflexivity|]. apply Qc_inv_pos. now apply BaseQc.inj_pos.
  - split; [repeat constructor|]. split; [now apply apart_unit|]. split; [repeat (constructor; [eexists; reflexivity|]); constructor|]. split; [split; [reflexivity|repeat (constructor; [cbn; lia|]); constructor]|].
    split; [|split; [|split; [repeat constructor|split; [repeat (constructor; [eexists; reflexivity|]); constructor|split; [cbn; lia|split]]]]].
    + apply (affine_jacobian square_one (fun _ => 0%Qc)); [repeat constructor|]. intros us d D Hd. inversion D as [|? u ? us1 Du D']; subst. inversion D' as [|? v ? us2 Dv D'']; subst. inversion D''; subst. change (dim_of (sp_cps square_one)) with 2 in Hd.
      unfold sp_value. cbn -[bernstein]. unfold bernstein, net. cbn -[inj nth]. change (inj 1) with 1%Qc. destruct d as [|[|d]]; [| |lia]; cbn; ring.
    + discriminate.
    + split; [reflexivity|]. repeat (constructor; [cbn; lia|]). constructor.
    + vm_compute. f_equal. apply Qc_is_canon. reflexivity.
Qed.

