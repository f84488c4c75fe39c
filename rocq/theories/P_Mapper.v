(** Proofs about derivatives with respect to the coordinates of a geometry. *)
From Coq Require Import List Arith Lia ZArith Bool QArith Qcanon Lqa Permutation.
From Verif Require Import Base BaseQc BaseRadix S_Spline S_Value S_Solve M_Solve P_Solve P_Spline P_Value P_Deriv P_Fit P_FitLs S_Mapper M_Mapper P_Total.
Import ListNotations.
Local Open Scope list_scope.
Local Open Scope nat_scope.

(** Values are sums of basis functions. *)
Lemma functional_flat axes us f : length us = length axes ->
  functional axes us f = qsum (map (fun g => weight (sp_basis axes us) (digits (map ax_n axes) g) * f g)%Qc (seq 0 (prodn (map ax_n axes)))).
Proof.
  intros L. unfold functional. rewrite <- (sp_basis_fst axes us L). apply tensor_flat.
Qed.
Lemma functional_delta axes us f : length us = length axes ->
  functional axes us f = qsum (map (fun a => functional axes us (fun g => if g =? a then 1 else 0)%Qc * f a)%Qc (seq 0 (prodn (map ax_n axes)))).
Proof.
  intros L. rewrite functional_flat by auto. apply qsum_ext. intros a Ha. apply in_seq in Ha. f_equal.
  rewrite functional_flat by auto.
  rewrite <- (delta_sum (fun g => weight (sp_basis axes us) (digits (map ax_n axes) g)) (prodn (map ax_n axes)) a) by lia.
  apply qsum_ext. intros; ring.
Qed.
Lemma functional_scale axes us c f : functional axes us (fun g => c * f g)%Qc = (c * functional axes us f)%Qc.
Proof. unfold functional. now rewrite tensor_mul_l. Qed.
Lemma nth_map_seq {A} (f : nat -> A) n k d : k < n -> nth k (map f (seq 0 n)) d = f k.
Proof.
  intros H. rewrite (nth_indep _ d (f 0)) by (rewrite map_length, seq_length; lia).
  rewrite map_nth, seq_nth by lia. reflexivity.
Qed.
Lemma delta_nth N a g : g < N -> nth 0 (nth g (map (fun b => [if b =? a then 1%Qc else 0%Qc]) (seq 0 N)) []) 0%Qc = (if g =? a then 1 else 0)%Qc.
Proof.
  intros H. now rewrite nth_map_seq.
Qed.
Lemma spline_basis_eq s a us : length us = length (sp_axes s) -> length (sp_cps s) = prodn (sp_res s) ->
  spline_basis s a us = match sp_weights s with
   | None => functional (sp_axes s) us (fun g => if g =? a then 1 else 0)%Qc
   | Some ws => (functional (sp_axes s) us (fun g => nth g ws 0 * (if g =? a then 1 else 0)) / functional (sp_axes s) us (fun g => nth g ws 0))%Qc
   end.
Proof.
  intros L N. unfold spline_basis. rewrite sp_value_functional. cbn [sp_weights sp_axes sp_cps].
  destruct (sp_weights s) as [ws|].
  - f_equal. apply functional_ext; auto. intros g Hg. rewrite delta_nth by (rewrite N; exact Hg). reflexivity.
  - apply functional_ext; auto. intros g Hg. rewrite delta_nth by (rewrite N; exact Hg). reflexivity.
Qed.
Lemma value_sum s us d : length us = length (sp_axes s) -> length (sp_cps s) = prodn (sp_res s) ->
  sp_value s us d = qsum (map (fun a => spline_basis s a us * nth d (nth a (sp_cps s) []) 0)%Qc (seq 0 (length (sp_cps s)))).
Proof.
  intros L N. rewrite sp_value_functional. rewrite N. unfold sp_res.
  destruct (sp_weights s) as [ws|] eqn:W.
  - rewrite functional_delta by auto. unfold Qcdiv. rewrite <- qsum_map_mul_r. apply qsum_ext. intros a Ha.
    rewrite spline_basis_eq by auto. rewrite W.
    transitivity (nth a ws 0 * functional (sp_axes s) us (fun g => if g =? a then 1 else 0) * / functional (sp_axes s) us (fun g => nth g ws 0) * nth d (nth a (sp_cps s) []) 0)%Qc; [ring|].
    rewrite <- functional_scale. unfold Qcdiv. f_equal. f_equal. apply functional_ext; auto.
    intros g _. destruct (Nat.eqb_spec g a) as [->|]; ring.
  - rewrite functional_delta by auto. apply qsum_ext. intros a Ha. rewrite spline_basis_eq by auto. now rewrite W.
Qed.
(** … of which those of the support count. *)
Lemma value_support s us d support : length us = length (sp_axes s) -> length (sp_cps s) = prodn (sp_res s) ->
  NoDup support -> (forall a, In a support -> a < length (sp_cps s)) ->
  (forall a, a < length (sp_cps s) -> ~ In a support -> spline_basis s a us = 0%Qc) ->
  sp_value s us d = qsum (map (fun k => spline_basis s (nth k support 0%nat) us * nth d (nth (nth k support 0%nat) (sp_cps s) []) 0)%Qc (seq 0 (length support))).
Proof.
  intros L N ND B Z. rewrite value_sum by auto.
  set (F := fun a => (spline_basis s a us * nth d (nth a (sp_cps s) []) 0)%Qc).
  change (qsum (map F (seq 0 (length (sp_cps s)))) = qsum (map (fun k => F (nth k support 0)) (seq 0 (length support)))).
  rewrite <- (map_map (fun k => nth k support 0) F). 
  replace (map (fun k => nth k support 0) (seq 0 (length support))) with support.
  2:{ clear. induction support as [|x l IH]; cbn; auto. f_equal. rewrite <- seq_shift, map_map. exact IH. }
  assert (FZ : forall a, a < length (sp_cps s) -> ~ In a support -> F a = 0%Qc) by (intros; unfold F; rewrite Z by auto; ring).
  clearbody F. clear - FZ ND B.
  set (m := length (sp_cps s)) in *. clearbody m.
  set (inb := fun a => existsb (Nat.eqb a) support).
  assert (I : forall a, inb a = true <-> In a support).
  { intros a. unfold inb. rewrite existsb_exists. split.
    - intros (x & Hx & E). apply Nat.eqb_eq in E. now subst.
    - intros H. exists a. split; auto. apply Nat.eqb_refl. }
  assert (P : Permutation support (filter inb (seq 0 m))).
  { apply NoDup_Permutation; auto.
    - apply NoDup_filter. apply seq_NoDup.
    - intros a. rewrite filter_In, I, in_seq. split; [intros H; split; auto; split; [lia|now apply B]|tauto]. }
  rewrite (qsum_perm _ _ (Permutation_map F P)).
  assert (G : forall l, (forall a, In a l -> a < m) -> qsum (map F l) = qsum (map F (filter inb l))).
  { induction l as [|a l IH]; intros Hl; cbn; auto. rewrite IH by (intros; apply Hl; now right).
    destruct (inb a) eqn:E; cbn; auto. rewrite FZ.
    - ring.
    - apply Hl. now left.
    - intros C. apply I in C. congruence. }
  apply G. intros a Ha. apply in_seq in Ha. lia.
Qed.

(** Linear combinations. *)
Lemma gradient_sum {A} x (f : A -> list Qc -> Qc) u (G : A -> nat -> Qc) (c : A -> Qc) J l :
  (forall i, i < length u -> total (x i) u (J i)) ->
  (forall a, In a l -> total (f a) u (G a)) ->
  total (fun w => qsum (map (fun a => f a w * c a)%Qc l)) u (fun j => qsum (map (fun a => G a j * c a)%Qc l)).
Proof.
  intros _ H. apply total_sum with (f := fun a w => (f a w * c a)%Qc) (D := fun a j => (G a j * c a)%Qc).
  intros a Ha. apply (total_ext (fun w => c a * f a w)%Qc _ u (fun j => c a * G a j)%Qc).
  - apply always. intros; ring.
  - intros; ring.
  - apply total_scale. auto.
Qed.

Lemma total_unique f u D E : total f u D -> total f u E -> forall j, j < length u -> D j = E j.
Proof.
  intros F G j Hj.
  assert (L : little u (linear u (fun j => D j - E j)%Qc)).
  { pose proof (little_sub u _ _ (proj1 (total_little f u E) G) (proj1 (total_little f u D) F)) as S. revert S.
    apply little_ext. apply always. intros w _.
    rewrite (linear_ext u (fun j => D j - E j)%Qc (fun j => D j + (- (1)) * E j)%Qc) by (intros; ring).
    rewrite linear_add, linear_scale. ring. }
  pose proof (linear_little u _ j L Hj) as Z. cbv beta in Z. replace (D j) with (D j - E j + E j)%Qc by ring. rewrite Z. ring.
Qed.
(** A gradient with respect to x times the Jacobian is the parametric gradient. *)
Lemma gradient_total x f w J D G : (forall i, i < length w -> total (x i) w (J i)) -> total f w D -> gradient_in x f w G ->
  forall j, j < length w -> qsum (map (fun i => G i * J i j)%Qc (seq 0 (length w))) = D j.
Proof.
  intros HX F HG. set (n := length w).
  assert (T : total f w (fun j => qsum (map (fun i => G i * J i j)%Qc (seq 0 n)))).
  { apply total_little.
    pose proof (gradient_little w x J HX f G HG) as L1. fold n in L1.
    pose proof (little_sub w _ _ L1 (little_scale w (- (1)) _ (rho_sum_little w x J HX G))) as L2. fold n in L2.
    revert L2. apply little_ext. apply always. intros v _.
    pose proof (gradient_rest w x J f G v) as R. fold n in R. rewrite R. ring. }
  intros j Hj. exact (total_unique f w _ _ T F j Hj).
Qed.

(** Orders. *)
Lemma eye_order1 n i : eye n i = order1 n i.
Proof. reflexivity. Qed.
Lemma plus_eye n i j : plus_orders (eye n i) (eye n j) = order2 n i j.
Proof.
  unfold plus_orders, eye, order2. generalize (seq 0 n). intros l. induction l as [|a l IH]; cbn; auto. now rewrite IH.
Qed.
Lemma order2_sym n i j : order2 n i j = order2 n j i.
Proof. unfold order2. apply map_ext. intros; lia. Qed.
Lemma second_orders_eq n i j : second_orders n i j = order2 n i j.
Proof.
  unfold second_orders. rewrite plus_eye. destruct (Nat.le_ge_cases i j).
  - now rewrite Nat.min_l, Nat.max_r by lia.
  - rewrite Nat.min_r, Nat.max_l by lia. apply order2_sym.
Qed.
Lemma entry_table n m f i j : i < n -> j < m -> entry (table n m f) i j = f i j.
Proof. intros Hi Hj. unfold entry, table. rewrite nth_map_seq by auto. now rewrite nth_map_seq. Qed.
Lemma nth_nil {A} k (d : A) : nth k [] d = d.
Proof. destruct k; reflexivity. Qed.

Lemma gradient_ext x f u G G' : (forall i, i < length u -> G i = G' i) -> gradient_in x f u G -> gradient_in x f u G'.
Proof.
  intros E H e He. destruct (H e He) as (r & R & B). exists r. split; auto. intros w N. specialize (B w N).
  rewrite (qsum_ext (fun i => G' i * (x i w - x i u))%Qc (fun i => G i * (x i w - x i u))%Qc); auto.
  intros i Hi. apply in_seq in Hi. rewrite E by lia. reflexivity.
Qed.
Lemma gradient_ext_f x f f' u G : (forall w, length w = length u -> f w = f' w) -> gradient_in x f u G -> gradient_in x f' u G.
Proof.
  intros E H e He. destruct (H e He) as (r & R & B). exists r. split; auto. intros w N. specialize (B w N).
  rewrite <- !E; auto. eapply near_length; eauto.
Qed.

(** The mapped gradient and Hessian of a function with the derivatives [P], [HP]. *)
Definition mapped1 (n : nat) (K : nat -> nat -> Qc) (P : nat -> Qc) (i : nat) : Qc := sum n (fun j => P j * K j i)%Qc.
Definition mapped2 (n : nat) (K : nat -> nat -> Qc) (Hx : nat -> nat -> nat -> Qc) (P : nat -> Qc) (HP : nat -> nat -> Qc) (i j : nat) : Qc :=
  sum n (fun l => sum n (fun k => K l i * (HP l k - sum n (fun nn => sum n (fun mm => P nn * K nn mm * Hx mm l k))) * K k j))%Qc.

Section Here.
Variable u : list Qc.
Let n := length u.
Variable x : nat -> list Qc -> Qc.
Variable JJ : nat -> nat -> list Qc -> Qc.
Variable Hx : nat -> nat -> nat -> Qc.
Variable K : nat -> nat -> Qc.
Hypothesis tx : eventually u (fun w => forall d, d < n -> total (x d) w (fun j => JJ d j w)).
Hypothesis tJ : forall d i, d < n -> i < n -> total (JJ d i) u (Hx d i).
Hypothesis JK : forall i j, i < n -> j < n -> qsum (map (fun k => JJ i k u * K k j)%Qc (seq 0 n)) = (if i =? j then 1 else 0)%Qc.
Hypothesis KJ : forall i j, i < n -> j < n -> qsum (map (fun k => K i k * JJ k j u)%Qc (seq 0 n)) = (if i =? j then 1 else 0)%Qc.

Lemma tx_here d : d < n -> total (x d) u (fun j => JJ d j u).
Proof. intros Hd. exact (eventually_here _ _ tx d Hd). Qed.

Lemma mapped1_gradient f P : total f u P -> gradient_in x f u (mapped1 n K P).
Proof. intros T. exact (gradient_of_total u x (fun d j => JJ d j u) K tx_here KJ f P T). Qed.
Lemma mapped1_only f G G' : gradient_in x f u G -> gradient_in x f u G' -> forall i, i < n -> G i = G' i.
Proof. exact (gradient_unique u x (fun d j => JJ d j u) K tx_here JK f G G'). Qed.

Lemma mapped2_second f (P : nat -> list Qc -> Qc) HP i : i < n ->
  eventually u (fun w => total f w (fun j => P j w)) -> (forall l, l < n -> total (P l) u (HP l)) ->
  second_in x f u i (mapped2 n K Hx (fun j => P j u) HP i).
Proof.
  intros Hi TF TP g HG.
  assert (G0 : forall m, m < n -> g m u = mapped1 n K (fun j => P j u) m).
  { intros m Hm. apply (mapped1_only f (fun k => g k u) _); auto.
    - exact (eventually_here u (fun w => gradient_in x f w (fun k => g k w)) HG).
    - apply mapped1_gradient. exact (eventually_here _ _ TF). }
  assert (S : eventually u (fun w => forall j, j < n -> qsum (map (fun i => g i w * JJ i j w)%Qc (seq 0 n)) = P j w)).
  { pose proof (eventually_and u _ _ HG (eventually_and _ _ _ TF tx)) as E. revert E. apply eventually_imp.
    intros w L (A1 & A2 & A3) j Hj.
    assert (Lw : length w = n) by exact L.
    pose proof (gradient_total x f w (fun d j => JJ d j w) (fun j => P j w) (fun k => g k w)) as T.
    rewrite Lw in T. apply T; auto. }
  assert (T : total (g i) u (fun k => qsum (map (fun l => (HP l k - qsum (map (fun m => g m u * Hx m l k) (seq 0 n))) * K l i)%Qc (seq 0 n)))).
  { exact (solved_total u g P JJ HP Hx K S TP tJ JK i Hi). }
  pose proof (mapped1_gradient _ _ T) as GR.
  assert (E : gradient_in x (g i) u (mapped2 n K Hx (fun j => P j u) HP i)).
  { revert GR. apply gradient_ext. intros j Hj. unfold mapped1, mapped2, sum.
    transitivity (qsum (map (fun k => qsum (map (fun l => (HP l k - qsum (map (fun m => g m u * Hx m l k) (seq 0 n))) * K l i * K k j)%Qc (seq 0 n))) (seq 0 n))).
    { apply qsum_ext. intros k _. rewrite <- qsum_map_mul_r. reflexivity. }
    rewrite qsum_swap. apply qsum_ext. intros l Hl. apply in_seq in Hl. apply qsum_ext. intros k Hk. apply in_seq in Hk.
    replace (qsum (map (fun m => g m u * Hx m l k)%Qc (seq 0 n))) with
      (qsum (map (fun nn => qsum (map (fun mm => P nn u * K nn mm * Hx mm l k)%Qc (seq 0 n))) (seq 0 n))); [ring|].
    rewrite qsum_swap. apply qsum_ext. intros m Hm. apply in_seq in Hm. rewrite G0 by lia.
    unfold mapped1, sum. rewrite <- qsum_map_mul_r. reflexivity. }
  split; auto. intros H' HH j Hj. symmetry. exact (mapped1_only (g i) _ _ E HH j Hj).
Qed.
End Here.

(** Linearity. *)
Lemma mapped1_sum {A} n K (P : A -> nat -> Qc) (c : A -> Qc) l i :
  mapped1 n K (fun j => qsum (map (fun a => P a j * c a)%Qc l)) i = qsum (map (fun a => mapped1 n K (P a) i * c a)%Qc l).
Proof.
  unfold mapped1, sum.
  transitivity (qsum (map (fun j => qsum (map (fun a => P a j * K j i * c a)%Qc l)) (seq 0 n))).
  { apply qsum_ext. intros j _. rewrite <- qsum_map_mul_r. apply qsum_ext. intros; ring. }
  rewrite qsum_swap. apply qsum_ext. intros a _. rewrite <- qsum_map_mul_r. reflexivity.
Qed.
Lemma sum_add n f g : sum n (fun i => f i + g i)%Qc = (sum n f + sum n g)%Qc.
Proof. apply qsum_map_add. Qed.
Lemma sum_mul_r n f c : sum n (fun i => f i * c)%Qc = (sum n f * c)%Qc.
Proof. apply qsum_map_mul_r. Qed.
Lemma sum_ext n f g : (forall i, i < n -> f i = g i) -> sum n f = sum n g.
Proof. intros H. apply qsum_ext. intros i Hi. apply in_seq in Hi. apply H. lia. Qed.
Lemma mapped2_add n K Hx P Q HP HQ i j :
  mapped2 n K Hx (fun a => P a + Q a)%Qc (fun a b => HP a b + HQ a b)%Qc i j = (mapped2 n K Hx P HP i j + mapped2 n K Hx Q HQ i j)%Qc.
Proof.
  unfold mapped2. rewrite <- sum_add. apply sum_ext. intros l _. rewrite <- sum_add. apply sum_ext. intros k _.
  assert (E : sum n (fun nn => sum n (fun mm => (P nn + Q nn) * K nn mm * Hx mm l k))%Qc =
   (sum n (fun nn => sum n (fun mm => P nn * K nn mm * Hx mm l k)) + sum n (fun nn => sum n (fun mm => Q nn * K nn mm * Hx mm l k)))%Qc).
  { rewrite <- sum_add. apply sum_ext. intros. rewrite <- sum_add. apply sum_ext. intros. ring. }
  rewrite E. ring.
Qed.
Lemma mapped2_scale n K Hx P HP c i j :
  mapped2 n K Hx (fun a => P a * c)%Qc (fun a b => HP a b * c)%Qc i j = (mapped2 n K Hx P HP i j * c)%Qc.
Proof.
  unfold mapped2. rewrite <- sum_mul_r. apply sum_ext. intros l _. rewrite <- sum_mul_r. apply sum_ext. intros k _.
  assert (E : sum n (fun nn => sum n (fun mm => (P nn * c) * K nn mm * Hx mm l k))%Qc =
   (sum n (fun nn => sum n (fun mm => P nn * K nn mm * Hx mm l k)) * c)%Qc).
  { rewrite <- sum_mul_r. apply sum_ext. intros. rewrite <- sum_mul_r. apply sum_ext. intros. ring. }
  rewrite E. ring.
Qed.
Lemma sum_0 n : sum n (fun _ => 0%Qc) = 0%Qc.
Proof. apply qsum_zero. reflexivity. Qed.
Lemma mapped2_0 n K Hx i j : mapped2 n K Hx (fun _ => 0%Qc) (fun _ _ => 0%Qc) i j = 0%Qc.
Proof.
  unfold mapped2. transitivity (sum n (fun _ => 0%Qc)); [|apply sum_0]. apply sum_ext. intros l _.
  transitivity (sum n (fun _ => 0%Qc)); [|apply sum_0]. apply sum_ext. intros k _.
  replace (sum n (fun nn => sum n (fun mm => 0 * K nn mm * Hx mm l k)))%Qc with 0%Qc; [ring|].
  symmetry. transitivity (sum n (fun _ => 0%Qc)); [|apply sum_0]. apply sum_ext. intros a _.
  transitivity (sum n (fun _ => 0%Qc)); [|apply sum_0]. apply sum_ext. intros; ring.
Qed.
Lemma mapped2_sum {A} n K Hx (P : A -> nat -> Qc) (HP : A -> nat -> nat -> Qc) (c : A -> Qc) l i j :
  mapped2 n K Hx (fun k => qsum (map (fun a => P a k * c a)%Qc l)) (fun k m => qsum (map (fun a => HP a k m * c a)%Qc l)) i j
  = qsum (map (fun a => mapped2 n K Hx (P a) (HP a) i j * c a)%Qc l).
Proof.
  induction l as [|a l IH]; cbn [map qsum fold_right].
  - apply mapped2_0.
  - unfold qsum in *. cbn [fold_right]. rewrite <- IH. rewrite <- mapped2_scale. rewrite <- mapped2_add. reflexivity.
Qed.

Lemma near_inner r u0 w : (0 < r)%Qc -> near (r * qc 1 2) u0 w -> forall w', near (r * qc 1 2) w w' -> near r u0 w'.
Proof.
  intros R N w' N'. apply near_intro.
  - rewrite (near_length _ _ _ N'). eapply near_length; eauto.
  - intros j Hj. pose proof (near_nth _ _ _ j N Hj) as A. 
    pose proof (near_nth _ _ _ j N' ltac:(rewrite (near_length _ _ _ N); auto)) as A'.
    pose proof (qabs_add (nth j w' 0%Qc - nth j w 0%Qc) (nth j w 0%Qc - nth j u0 0%Qc)) as T.
    replace (nth j w' 0 - nth j w 0 + (nth j w 0 - nth j u0 0))%Qc with (nth j w' 0 - nth j u0 0)%Qc in T by ring.
    assert (Q : (r * qc 1 2 + r * qc 1 2 = r)%Qc).
    { replace (r * qc 1 2 + r * qc 1 2)%Qc with (r * (qc 1 2 + qc 1 2))%Qc by ring.
      replace (qc 1 2 + qc 1 2)%Qc with 1%Qc by (apply Qc_is_canon; reflexivity). ring. }
    rewrite <- Q. set (h := (r * qc 1 2)%Qc) in *. clearbody h. clear - A A' T. qlra.
Qed.
Lemma eventually_twice u0 (P : list Qc -> Prop) : eventually u0 P -> eventually u0 (fun w => eventually w P).
Proof.
  intros (r & R & H). exists (r * qc 1 2)%Qc.
  assert (R2 : (0 < r * qc 1 2)%Qc) by (apply Qc_mul_pos; [exact R|reflexivity]). split; auto.
  intros w N. exists (r * qc 1 2)%Qc. split; auto. intros w' N'. apply H. eapply near_inner; eauto.
Qed.
Lemma second_ext x f u0 i H H' : (forall j, j < length u0 -> H j = H' j) -> second_in x f u0 i H -> second_in x f u0 i H'.
Proof.
  intros E S g Hg. destruct (S g Hg) as [A1 A2]. split.
  - now apply (gradient_ext x (g i) u0 H).
  - intros H0 HH j Hj. rewrite <- E by auto. now apply A2.
Qed.

Section Model.
Variables (B : backend) (field geo : spline) (u : list Qc).
Let n := length u.
Let m := (field, geo, n).
Let support := b_support B field u.
Hypothesis Lf : length (sp_axes field) = n.
Hypothesis Nf : length (sp_cps field) = prodn (sp_res field).
Hypothesis BR : basis_right (b_support B field) (b_basis B field) field u.
Hypothesis GR : geometry_right (b_jacobian B geo) (b_derivative B geo) geo u.
Variable invjac : list (list Qc).
Hypothesis inv_ok : b_inv B (b_jacobian B geo u) = Some invjac.
Hypothesis inv_right : inverse n (b_jacobian B geo u) invjac.

Let D k i w := nth k (b_basis B field (order1 n i) w) 0%Qc.
Let H2 k i j := nth k (b_basis B field (order2 n i j) u) 0%Qc.
Let Hx d i j := nth d (b_derivative B geo (order2 n i j) u) 0%Qc.
Let K := entry invjac.
Let JJ d j w := entry (b_jacobian B geo w) d j.
Let len := length support.
Let fn k := spline_basis field (nth k support 0).

Lemma m_tx : eventually u (fun w => forall d, d < n -> total (coordinate geo d) w (fun j => JJ d j w)).
Proof. destruct GR as (_ & G & _). exact G. Qed.
Lemma m_tJ d i : d < n -> i < n -> total (JJ d i) u (Hx d i).
Proof. destruct GR as (_ & _ & G). apply G. Qed.
Lemma m_JK i j : i < n -> j < n -> qsum (map (fun k => JJ i k u * K k j)%Qc (seq 0 n)) = (if i =? j then 1 else 0)%Qc.
Proof. intros Hi Hj. apply (inv_right i j Hi Hj). Qed.
Lemma m_KJ i j : i < n -> j < n -> qsum (map (fun k => K i k * JJ k j u)%Qc (seq 0 n)) = (if i =? j then 1 else 0)%Qc.
Proof. intros Hi Hj. apply (inv_right i j Hi Hj). Qed.
Lemma m_fn k : k < len -> eventually u (fun w => total (fn k) w (fun j => D k j w)).
Proof.
  intros Hk. destruct BR as (_ & _ & (r & R & E) & _). exists r. split; auto. intros w N. apply (E w N). exact Hk.
Qed.
Lemma m_D k l : k < len -> l < n -> total (D k l) u (H2 k l).
Proof. intros Hk Hl. destruct BR as (_ & _ & _ & E). apply E; auto. Qed.
Let cp k v := entry (chosen_cps field support) k v.
Lemma cp_eq k v : k < len -> cp k v = nth v (nth (nth k support 0) (sp_cps field) []) 0%Qc.
Proof.
  intros Hk. unfold cp, entry, chosen_cps. f_equal.
  rewrite (nth_indep _ [] ((fun a => nth a (sp_cps field) []) 0)) by (rewrite map_length; exact Hk).
  exact (map_nth (fun a => nth a (sp_cps field) []) support 0 k).
Qed.
Lemma m_value v : eventually u (fun w => coordinate field v w = qsum (map (fun k => fn k w * cp k v)%Qc (seq 0 len))).
Proof.
  destruct BR as (ND & Bd & (r & R & E) & _). exists r. split; auto. intros w N. destruct (E w N) as (E1 & E2 & _).
  unfold coordinate. rewrite (value_support field w v support); auto.
  - apply qsum_ext. intros k Hk. apply in_seq in Hk. unfold fn. rewrite cp_eq by lia. reflexivity.
  - rewrite (near_length _ _ _ N). symmetry. exact Lf.
Qed.
Let Df v i w := qsum (map (fun k => D k i w * cp k v)%Qc (seq 0 len)).
Let H2f v i j := qsum (map (fun k => H2 k i j * cp k v)%Qc (seq 0 len)).
Lemma value_total v w : eventually w (fun w' => coordinate field v w' = qsum (map (fun k => fn k w' * cp k v)%Qc (seq 0 len))) ->
  (forall k, k < len -> total (fn k) w (fun j => D k j w)) ->
  total (coordinate field v) w (fun j => Df v j w).
Proof.
  intros E T.
  apply (total_ext (fun w => qsum (map (fun k => fn k w * cp k v)%Qc (seq 0 len))) _ w (fun j => Df v j w)).
  - revert E. apply eventually_imp. auto.
  - auto.
  - unfold Df. apply total_sum with (f := fun k w => (fn k w * cp k v)%Qc) (D := fun k j => (D k j w * cp k v)%Qc).
    intros k Hk. apply in_seq in Hk.
    apply (total_ext (fun w => cp k v * fn k w)%Qc _ w (fun j => cp k v * D k j w)%Qc).
    + apply always. intros; ring.
    + intros; ring.
    + apply total_scale. apply T. lia.
Qed.
Lemma m_field v : eventually u (fun w => total (coordinate field v) w (fun j => Df v j w)).
Proof.
  pose proof (eventually_twice _ _ (m_value v)) as E1.
  pose proof (eventually_all u len (fun k w => total (fn k) w (fun j => D k j w)) m_fn) as E2.
  pose proof (eventually_and _ _ _ E1 E2) as E. revert E. apply eventually_imp. intros w _ [A1 A2]. now apply value_total.
Qed.
Lemma m_Df v l : l < n -> total (Df v l) u (H2f v l).
Proof.
  intros Hl. unfold Df, H2f.
  apply total_sum with (f := fun k w => (D k l w * cp k v)%Qc) (D := fun k j => (H2 k l j * cp k v)%Qc).
  intros k Hk. apply in_seq in Hk.
  apply (total_ext (fun w => cp k v * D k l w)%Qc _ u (fun j => cp k v * H2 k l j)%Qc).
  - apply always. intros; ring.
  - intros; ring.
  - apply total_scale. apply m_D; lia.
Qed.

(** Basis functions. *)
Lemma fn_gradient k : k < len -> the_gradient (coordinate geo) (fn k) u (mapped1 n K (fun j => D k j u)).
Proof.
  intros Hk.
  assert (G : gradient_in (coordinate geo) (fn k) u (mapped1 n K (fun j => D k j u))).
  { apply (mapped1_gradient u _ JJ K m_tx m_KJ). exact (eventually_here _ _ (m_fn k Hk)). }
  split; auto. intros G' HG' i Hi. exact (mapped1_only u _ JJ K m_tx m_JK _ _ _ HG' G i Hi).
Qed.
Lemma fn_second k i : k < len -> i < n -> second_in (coordinate geo) (fn k) u i (mapped2 n K Hx (fun j => D k j u) (H2 k) i).
Proof.
  intros Hk Hi. apply (mapped2_second u _ JJ Hx K m_tx m_tJ m_JK m_KJ (fn k) (D k) (H2 k) i Hi).
  - now apply m_fn.
  - intros l Hl. now apply m_D.
Qed.
(** Fields. *)
Lemma field_gradient v : the_gradient (coordinate geo) (coordinate field v) u (fun i => qsum (map (fun k => mapped1 n K (fun j => D k j u) i * cp k v)%Qc (seq 0 len))).
Proof.
  assert (G : gradient_in (coordinate geo) (coordinate field v) u (fun i => qsum (map (fun k => mapped1 n K (fun j => D k j u) i * cp k v)%Qc (seq 0 len)))).
  { pose proof (mapped1_gradient u _ JJ K m_tx m_KJ _ _ (eventually_here _ _ (m_field v))) as G. revert G.
    apply gradient_ext. intros i _. unfold Df. apply (mapped1_sum n K (fun k j => D k j u) (fun k => cp k v)). }
  split; auto. intros G' HG' i Hi. exact (mapped1_only u _ JJ K m_tx m_JK _ _ _ HG' G i Hi).
Qed.
Lemma field_second v i : i < n -> second_in (coordinate geo) (coordinate field v) u i
  (fun j => qsum (map (fun k => mapped2 n K Hx (fun j => D k j u) (H2 k) i j * cp k v)%Qc (seq 0 len))).
Proof.
  intros Hi.
  pose proof (mapped2_second u _ JJ Hx K m_tx m_tJ m_JK m_KJ (coordinate field v) (Df v) (H2f v) i Hi (m_field v) (fun l Hl => m_Df v l Hl)) as S.
  revert S. apply second_ext. intros j _. unfold Df, H2f.
  apply (mapped2_sum n K Hx (fun k j => D k j u) H2 (fun k => cp k v)).
Qed.

(** The arrays computed. *)
Lemma basis_results_eq g h l : exists r, basis_function_derivatives B m u g h l = Ok r /\ br_support r = support /\
  (br_gradient r = if g then Some (table len n (fun k i => mapped1 n K (fun j => D k j u) i)) else None) /\
  (br_hessian r = if h then Some (map (fun k => table n n (mapped2 n K Hx (fun j => D k j u) (H2 k))) (seq 0 len)) else None) /\
  (br_laplacian r = if l then Some (map (fun k => sum n (fun i => mapped2 n K Hx (fun j => D k j u) (H2 k) i i)) (seq 0 len)) else None).
Proof.
  unfold basis_function_derivatives, m. rewrite inv_ok.
  match goal with |- exists r, Ok ?R = Ok r /\ _ => exists R end.
  split; [reflexivity|]. split; [reflexivity|]. cbn [br_gradient br_hessian br_laplacian]. fold support. fold len.
  set (T := table len n (fun s i => nth s (b_basis B field (eye n i) u) 0%Qc)).
  assert (TE : forall k i, k < len -> i < n -> entry T k i = D k i u) by (intros; unfold T; now rewrite entry_table).
  clearbody T.
  set (GH := map (fun d => table n n (fun i j => nth d (b_derivative B geo (second_orders n i j) u) 0%Qc)) (seq 0 n)).
  assert (GE : forall d i j, d < n -> i < n -> j < n -> entry (nth d GH []) i j = Hx d i j).
  { intros. unfold GH. rewrite nth_map_seq by auto. rewrite entry_table by auto. now rewrite second_orders_eq. }
  clearbody GH.
  set (BH := map (fun a => table n n (fun l k' =>
        (nth a (b_basis B field (second_orders n l k') u) 0 -
         sum n (fun nn => sum n (fun mm => entry T a nn * entry invjac nn mm * entry (nth mm GH []) l k')))%Qc))
      (seq 0 len)).
  assert (BE : forall k i j, k < len -> i < n -> j < n -> entry (nth k BH []) i j =
    (H2 k i j - sum n (fun nn => sum n (fun mm => D k nn u * K nn mm * Hx mm i j)))%Qc).
  { intros. unfold BH. rewrite nth_map_seq by auto. rewrite entry_table by auto. rewrite second_orders_eq. unfold H2. f_equal.
    apply sum_ext. intros nn Hn. apply sum_ext. intros mm Hm. rewrite TE, GE by auto. reflexivity. }
  clearbody BH.
  set (HE := map (fun a => table n n (fun i j =>
        sum n (fun l => sum n (fun k' => entry invjac l i * entry (nth a BH []) l k' * entry invjac k' j))%Qc))
      (seq 0 len)).
  assert (HEE : HE = map (fun k => table n n (mapped2 n K Hx (fun j => D k j u) (H2 k))) (seq 0 len)).
  { unfold HE. apply map_ext_in. intros k Hk. apply in_seq in Hk. unfold table. apply map_ext_in. intros i Hi. apply in_seq in Hi.
    apply map_ext_in. intros j Hj. apply in_seq in Hj. unfold mapped2. apply sum_ext. intros a Ha. apply sum_ext. intros b Hb.
    rewrite BE by lia. reflexivity. }
  split; [|split].
  - destruct g; auto. f_equal. unfold table. apply map_ext_in. intros k Hk. apply in_seq in Hk. apply map_ext_in. intros i Hi. apply in_seq in Hi.
    unfold mapped1. apply sum_ext. intros j Hj. rewrite TE by lia. reflexivity.
  - destruct h; auto. now rewrite HEE.
  - destruct l; auto. f_equal. destruct h.
    + apply map_ext_in. intros k Hk. apply in_seq in Hk. apply sum_ext. intros i Hi. rewrite HEE. rewrite nth_map_seq by lia. now rewrite entry_table.
    + apply map_ext_in. intros k Hk. apply in_seq in Hk. unfold mapped2.
      transitivity (sum n (fun l => sum n (fun i => sum n (fun k' => K l i * (H2 k l k' - sum n (fun nn => sum n (fun mm => D k nn u * K nn mm * Hx mm l k'))) * K k' i)))%Qc).
      { apply sum_ext. intros a Ha. apply sum_ext. intros i Hi. apply sum_ext. intros b Hb. rewrite BE by lia. reflexivity. }
      unfold sum at 1 2 6 7. rewrite qsum_swap. reflexivity.
Qed.

Let G1 k i := mapped1 n K (fun j => D k j u) i.
Let G2 k i j := mapped2 n K Hx (fun j => D k j u) (H2 k) i j.
Let FG v i := qsum (map (fun k => G1 k i * cp k v)%Qc (seq 0 len)).
Let FH v i j := qsum (map (fun k => G2 k i j * cp k v)%Qc (seq 0 len)).

Lemma field_results_eq g d h l : (d = true -> length (sp_axes field) = dim_of field) ->
  exists r, field_derivatives B m u g d h l = Ok r /\
  (fr_gradient r = if g then Some (table (dim_of field) n FG) else None) /\
  (fr_divergence r = if d then Some (sum n (fun i => FG i i)) else None) /\
  (fr_hessian r = if h then Some (map (fun v => table n n (FH v)) (seq 0 (dim_of field))) else None) /\
  (fr_laplacian r = if l then Some (map (fun v => sum n (fun i => FH v i i)) (seq 0 (dim_of field))) else None).
Proof.
  intros Hd. destruct (basis_results_eq (g || d) h l) as (r & E & Es & Eg & Eh & El).
  assert (Gb : forall k i, (g || d = true)%bool -> k < len -> i < n -> entry (got [] (br_gradient r)) k i = G1 k i).
  { intros k i T Hk Hi. rewrite Eg, T. cbn [got]. now rewrite entry_table. }
  assert (Hb : forall k i j, h = true -> k < len -> i < n -> j < n -> entry (nth k (got [] (br_hessian r)) []) i j = G2 k i j).
  { intros k i j T Hk Hi Hj. rewrite Eh, T. cbn [got]. rewrite nth_map_seq by auto. now rewrite entry_table. }
  assert (Lb : forall k, l = true -> k < len -> nth k (got [] (br_laplacian r)) 0%Qc = sum n (fun i => G2 k i i)).
  { intros k T Hk. rewrite El, T. cbn [got]. now rewrite nth_map_seq. }
  unfold field_derivatives. unfold m at 1. rewrite E. rewrite Es. fold len.
  assert (C : (d && negb (length (sp_axes field) =? dim_of field))%bool = false).
  { destruct d; auto. rewrite Hd by auto. now rewrite Nat.eqb_refl. }
  rewrite C. clear C.
  match goal with |- exists r, Ok ?R = Ok r /\ _ => exists R end.
  split; [reflexivity|]. cbn [fr_gradient fr_divergence fr_hessian fr_laplacian].
  assert (Gf : (g || d = true)%bool -> table (dim_of field) n (fun v d0 => sum len (fun s => entry (got [] (br_gradient r)) s d0 * entry (chosen_cps field support) s v)%Qc) = table (dim_of field) n FG).
  { intros T. unfold table. apply map_ext_in. intros v Hv. apply map_ext_in. intros i Hi. apply in_seq in Hi. apply sum_ext. intros k Hk. rewrite Gb by (auto; lia). reflexivity. }
  assert (Hf : h = true -> map (fun v => table n n (fun i j => sum len (fun s => entry (nth s (got [] (br_hessian r)) []) i j * entry (chosen_cps field support) s v)%Qc)) (seq 0 (dim_of field)) = map (fun v => table n n (FH v)) (seq 0 (dim_of field))).
  { intros T. apply map_ext_in. intros v Hv. unfold table. apply map_ext_in. intros i Hi. apply in_seq in Hi. apply map_ext_in. intros j Hj. apply in_seq in Hj.
    apply sum_ext. intros k Hk. rewrite Hb by (auto; lia). reflexivity. }
  split; [|split; [|split]].
  - destruct g; auto. now rewrite Gf.
  - destruct d; auto. f_equal. assert (Dn : dim_of field = n) by (rewrite <- Lf; symmetry; now apply Hd).
    destruct g.
    + rewrite Gf by auto. apply sum_ext. intros i Hi. apply entry_table; lia.
    + unfold FG, sum. rewrite qsum_swap. apply qsum_ext. intros k Hk. apply in_seq in Hk. apply qsum_ext. intros i Hi. apply in_seq in Hi.
      rewrite Gb by (auto; lia). reflexivity.
  - destruct h; auto. now rewrite Hf.
  - destruct l; auto. f_equal. destruct h.
    + apply map_ext_in. intros v Hv. apply in_seq in Hv. apply sum_ext. intros i Hi. rewrite Hf by auto. rewrite nth_map_seq by lia. now rewrite entry_table.
    + apply map_ext_in. intros v Hv. unfold FH, sum. rewrite qsum_swap. apply qsum_ext. intros k Hk. apply in_seq in Hk. rewrite Lb by (auto; lia).
      unfold sum. rewrite <- qsum_map_mul_r. reflexivity.
Qed.
End Model.
