(** The assumptions about libraries made for integration can be met: knot
    insertion by the matrices of M_KnotInsert. *)
From Coq Require Import List Arith ZArith Lia Bool QArith Qcanon Sorted Permutation.
From Verif Require Import Base BaseRadix BaseSort BaseQc S_Grid S_Spline P_Spline S_Value S_Knots S_Pieces S_Deriv P_Deriv M_Core M_Integrate S_Integrate P_Integrate P_View.
From Verif Require P_Shapes M_KnotInsert S_KnotInsert P_KnotInsert P_KnotGlobal.
Import ListNotations.
Local Open Scope list_scope.
Local Open Scope nat_scope.

(** * Insertion *)
Definition min_gap (l : list Qc) : Qc :=
  fold_right (fun d acc => if qeqb d 0 then acc else if qltb d acc then d else acc) 1%Qc
             (flat_map (fun x => map (fun y => qabs (x - y)%Qc) l) l).
Lemma min_gap_spec l : (0 < min_gap l)%Qc /\ forall x y, In x l -> In y l -> x = y \/ (min_gap l <= qabs (x - y))%Qc.
Proof.
  unfold min_gap. set (ds := flat_map _ _).
  assert (forall d, In d ds -> (0 <= d)%Qc) as Hd. { intros d H. apply in_flat_map in H as (x & _ & H). apply in_map_iff in H as (y & <- & _). apply qabs_nonneg. }
  assert (0 < fold_right (fun d acc => if qeqb d 0 then acc else if qltb d acc then d else acc) 1 ds /\
          forall d, In d ds -> d = 0 \/ fold_right (fun d acc => if qeqb d 0 then acc else if qltb d acc then d else acc) 1 ds <= d)%Qc as [A B].
  { clearbody ds. induction ds as [|d ds IH]; [split; [reflexivity|intros d []]|].
    destruct IH as [IH1 IH2]. { intros; apply Hd; now right. }
    cbn [fold_right]. set (acc := fold_right _ _ ds) in *. clearbody acc. destruct (qeqb_spec d 0) as [E|E].
    - split; auto. intros d' [<-|H]; auto.
    - assert (0 < d)%Qc as P. { specialize (Hd d (or_introl eq_refl)). apply Qcle_lt_or_eq in Hd as [P|P]; auto. exfalso. now apply E. }
      destruct (qltb_spec d acc) as [L|L].
      + split; auto. intros d' [<-|H]; [right; apply Qcle_refl|]. destruct (IH2 d' H) as [Z|Z]; auto. right. clear - L Z. qlra.
      + split; auto. intros d' [<-|H]; auto. right. clear - L. qlra. }
  split; auto. intros x y Hx Hy. destruct (B (qabs (x - y))%Qc) as [Z|Z]; auto.
  - apply in_flat_map. exists x. split; auto. apply in_map_iff. eauto.
  - left. destruct (Qc_eq_dec (x - y) 0) as [E|E].
    + rewrite <- (Qcplus_0_l y), <- E. ring.
    + exfalso. apply qabs_gt_0 in E. rewrite Z in E. discriminate E.
Qed.
Definition pair_of (a : paxis) : nat * list Qc := match a with BezierAxis p => (p, []) | KnotAxis p kv => (p, kv) end.
Definition insert_by_matrix (s : spline) (k : nat) (ks : list Qc) : option spline :=
  match nth_error (sp_axes s) k with
  | Some (KnotAxis p kv) =>
      match M_KnotInsert.global_insertion_matrix (min_gap (kv ++ ks)) (map pair_of (sp_axes s)) k ks with
      | Some g => Some (Spl (firstn k (sp_axes s) ++ KnotAxis p (qsort (kv ++ ks)) :: skipn (S k) (sp_axes s))
                            (M_KnotInsert.apply_entries (M_KnotInsert.gm_entries g) (M_KnotInsert.gm_new g) (dim_of (sp_cps s)) (sp_cps s)) None)
      | None => None
      end
  | _ => None
  end.
Lemma same_value axes cps us d : Forall (fun a => match a with KnotAxis _ _ => True | _ => False end) axes ->
  bs_value (BSpline (map pair_of axes) cps) us d = sp_value (Spl axes cps None) us d.
Proof.
  intros F. unfold bs_value, sp_value. cbn [sp_weights sp_axes sp_cps bs_axes bs_cps]. unfold bs_res, sp_res. cbn [bs_axes sp_axes]. rewrite map_map.
  replace (map (fun x => n_basis (pair_of x)) axes) with (map ax_n axes).
  - f_equal. unfold axes_basis, sp_basis. clear - F. revert us. induction F as [|[p|p kv] axes Ha F IH]; intros [|u us]; try reflexivity; [contradiction|].
    cbn [map combine pair_of fst snd]. f_equal. apply IH.
  - clear - F. induction F as [|[p|p kv] axes Ha F IH]; [reflexivity|contradiction|]. cbn [map]. now rewrite IH.
Qed.
Lemma same_wf axes cps : Forall (fun a => match a with KnotAxis _ _ => True | _ => False end) axes ->
  (bs_wf (BSpline (map pair_of axes) cps) <-> sp_wf (Spl axes cps None)).
Proof.
  intros F. unfold bs_wf, sp_wf. cbn [sp_weights sp_axes sp_cps bs_axes bs_cps]. unfold bs_res, sp_res. cbn [bs_axes sp_axes]. rewrite map_map.
  replace (map (fun x => n_basis (pair_of x)) axes) with (map ax_n axes).
  - assert (Forall axis_wf (map pair_of axes) <-> Forall ax_wf axes) as E; [|tauto]. clear - F. induction F as [|[p|p kv] axes Ha F IH]; [split; constructor|contradiction|].
    cbn [map]. split; intros H; inversion H; subst; constructor; auto; now apply IH.
  - clear - F. induction F as [|[p|p kv] axes Ha F IH]; [reflexivity|contradiction|]. cbn [map]. now rewrite IH.
Qed.
Lemma same_domain axes cps us : Forall (fun a => match a with KnotAxis _ _ => True | _ => False end) axes ->
  Forall2 ax_domain axes us -> bs_in_domain (BSpline (map pair_of axes) cps) us.
Proof.
  intros F D. unfold bs_in_domain. cbn [bs_axes]. revert F. induction D as [|[p|p kv] u axes us H D IH]; intros F; inversion F; subst; try contradiction; constructor; auto.
Qed.
Lemma wf_positive s : sp_wf s -> 0 < length (sp_cps s).
Proof.
  intros (W & L & _). rewrite L. unfold sp_res. clear L. induction W as [|a axes Ha W IH]; [cbn; lia|]. cbn [map fold_right].
  assert (0 < ax_n a); [|nia]. destruct a as [p|p kv]; cbn [ax_n] in *; [lia|]. cbn [ax_wf ax_n] in Ha. destruct Ha as (Lk & M & H).
  destruct (Nat.eq_dec (length kv - p - 1) 0) as [E|E]; [|lia]. exfalso. rewrite E in *. apply (Qclt_not_le _ _ H). rewrite !(kn_nth _ _ 0%Qc) by lia. apply M; lia.
Qed.
Lemma insert_by_matrix_ok : inserting insert_by_matrix.
Proof.
  intros s k p kv ks W U Hk Ew En Hp Hc Nk SK IK. unfold insert_by_matrix. rewrite En.
  assert (s = Spl (sp_axes s) (sp_cps s) None) as Es by (destruct s; cbn in *; now rewrite Ew).
  destruct (min_gap_spec (kv ++ ks)) as [G0 G1]. set (tol := min_gap (kv ++ ks)) in *. clearbody tol.
  assert (nth_error (map pair_of (sp_axes s)) k = Some (p, kv)) as En'. { rewrite nth_error_map, En. reflexivity. }
  assert (knot_vector p (ax_n (KnotAxis p kv)) kv) as KV.
  { destruct W as [W _]. rewrite Forall_forall in W. apply nth_error_In in En. exact (W _ En). }
  assert (bs_wf (BSpline (map pair_of (sp_axes s)) (sp_cps s))) as Wb. { apply same_wf; [exact Hk|]. rewrite <- Es. exact W. }
  destruct (P_KnotGlobal.insertion_geometry tol (map pair_of (sp_axes s)) (sp_cps s) k p kv ks (dim_of (sp_cps s)) Wb En') as (g & Eg & _ & H).
  { cbn [ax_clamped ax_n] in Hc. destruct Hc as (C1 & C2 & C3 & C4). constructor; auto.
    - intros x y Hx Hy. apply G1; auto. apply in_app_iff. auto.
    - intros x Hx. destruct (IK x Hx) as (I1 & I2 & _). auto. }
  rewrite Eg. set (new := qsort (kv ++ ks)). assert (Permutation new (kv ++ ks)) as Pn by apply qsort_perm.
  assert (non_decreasing new) as Nn by (apply P_KnotInsert.nd_sorted, qsort_sorted).
  destruct (H new Pn Nn) as [W' V']. set (cps' := M_KnotInsert.apply_entries _ _ _ _) in *.
  set (axes' := firstn k (sp_axes s) ++ KnotAxis p new :: skipn (S k) (sp_axes s)).
  assert (firstn k (map pair_of (sp_axes s)) ++ (p, new) :: skipn (S k) (map pair_of (sp_axes s)) = map pair_of axes') as Ea.
  { unfold axes'. rewrite map_app, firstn_map. cbn [map pair_of]. now rewrite skipn_map. }
  rewrite Ea in *.
  assert (Forall (fun a => match a with KnotAxis _ _ => True | _ => False end) axes') as F'.
  { unfold axes'. apply Forall_app. split; [now apply Forall_firstn|]. constructor; [exact I|]. now apply Forall_skipn. }
  assert (sp_wf (Spl axes' cps' None)) as Ws' by now apply same_wf.
  assert (Forall (fun q => length q = dim_of (sp_cps s)) cps') as Fc.
  { unfold cps', M_KnotInsert.apply_entries. apply Forall_map, Forall_forall. intros r _. now rewrite map_length, seq_length. }
  assert (dim_of cps' = dim_of (sp_cps s)) as Ed.
  { pose proof (wf_positive _ Ws') as Pc. cbn [sp_cps] in Pc. unfold dim_of at 1. destruct cps' as [|q cps']; [cbn in Pc; lia|]. now inversion Fc. }
  exists (Spl axes' cps' None), new. split; [reflexivity|]. split; [exact Pn|]. split; [exact Nn|]. split; [reflexivity|]. split; [exact Ws'|].
  split; [unfold uniform; cbn [sp_cps]; now rewrite Ed|]. split; [reflexivity|]. split; [exact Ed|].
  intros us d D Hd. destruct (V' us) as [D' V2].
  - now apply same_domain.
  - rewrite <- same_value by exact F'. rewrite V2 by exact Hd. rewrite same_value by exact Hk. now rewrite <- Es.
Qed.

(** * Rules and roots *)
Definition flat_rule (n : nat) : list Qc * list Qc := (repeat 0%Qc n, repeat (inj 2 / inj n)%Qc n).
Lemma flat_rule_ok : gaussian flat_rule.
Proof.
  intros n Hn. unfold flat_rule. cbn [fst snd]. split; [destruct n; [lia|discriminate]|]. rewrite !repeat_length. split; auto. split.
  - apply Forall_forall. intros x H. apply repeat_spec in H. subst x. split; reflexivity.
  - assert (forall k c, qsum (repeat c k) = inj k * c)%Qc as K.
    { clear. induction k as [|k IH]; intros c; [change (inj 0) with 0%Qc; cbn [repeat qsum]; ring|]. cbn [repeat qsum]. rewrite IH, inj_S. ring. }
    rewrite K. field. intro Z. assert (0 < inj n)%Qc as P by (apply P_Shapes.inj_pos; lia). rewrite Z in P. discriminate P.
Qed.
(** Square roots of squares of rational numbers; 0 otherwise. *)
Definition square (z : Z) : bool := (Z.sqrt z * Z.sqrt z =? z)%Z.
Definition root (x : Qc) : Qc :=
  let n := (Qnum (this x) * Zpos (Qden (this x)))%Z in
  if square n then Q2Qc (Qmake (Z.sqrt n) (Qden (this x))) else 0%Qc.
Lemma square_divides (a b : Z) : (a * a | b * b)%Z -> (a | b)%Z.
Proof.
  intros H. destruct (Z.eq_dec (Z.gcd a b) 0) as [E|E].
  - apply Z.gcd_eq_0 in E as [-> ->]. apply Z.divide_refl.
  - destruct (Z.gcd_divide_l a b) as [a' Ha]. destruct (Z.gcd_divide_r a b) as [b' Hb]. set (g := Z.gcd a b) in *.
    assert (Z.gcd a' b' = 1)%Z as G.
    { assert (Z.gcd a b = Z.abs g * Z.gcd a' b')%Z as G. { rewrite Ha at 1. rewrite Hb at 1. rewrite !(Z.mul_comm _ g). rewrite Z.gcd_mul_mono_l. reflexivity. }
      fold g in G. assert (0 <= g)%Z by apply Z.gcd_nonneg. rewrite Z.abs_eq in G by auto. nia. }
    destruct H as [q Hq]. assert (a' | b')%Z as D.
    { apply (Z.gauss a' b' b'); auto. exists (q * a')%Z. apply (Z.mul_reg_r _ _ (g * g)); [nia|]. rewrite Ha, Hb in Hq. nia. }
    destruct D as [r Hr]. exists r. rewrite Ha, Hb, Hr. ring.
Qed.
Lemma square_iff n : square n = true <-> exists k, (0 <= k)%Z /\ (k * k = n)%Z.
Proof.
  unfold square. rewrite Z.eqb_eq. split.
  - intros H. exists (Z.sqrt n). split; auto. apply Z.sqrt_nonneg.
  - intros (k & Hk & <-). now rewrite Z.sqrt_square.
Qed.
Lemma root_nonneg x : (0 <= root x)%Qc.
Proof.
  unfold root. destruct (square _); [|apply Qcle_refl]. unfold Qcle. cbn [this Q2Qc]. rewrite !Qred_correct. unfold Qle. cbn [Qnum Qden this Q2Qc]. pose proof (Z.sqrt_nonneg (Qnum (this x) * Zpos (Qden (this x)))) as H. set (z := Z.sqrt _) in *. clearbody z. cbn. lia.
Qed.
Lemma root_sound x : square (Qnum (this x) * Zpos (Qden (this x))) = true -> (root x * root x = x)%Qc.
Proof.
  intros H. unfold root. rewrite H. unfold square in H. apply Z.eqb_eq in H. apply Qc_is_canon. unfold Qcmult. cbn [this Q2Qc]. rewrite Qred_correct, !Qred_correct.
  set (n := Qnum (this x)) in *. set (d := Qden (this x)) in *. set (k := Z.sqrt (n * Zpos d)) in *. unfold Qeq. cbn [Qnum Qden Qmult]. fold n d. rewrite H. rewrite Pos2Z.inj_mul. ring.
Qed.
Lemma root_test r : square (Qnum (this (r * r)%Qc) * Zpos (Qden (this (r * r)%Qc))) = true.
Proof.
  set (x := (r * r)%Qc). set (n := Qnum (this x)). set (d := Zpos (Qden (this x))). set (a := Qnum (this r)). set (b := Zpos (Qden (this r))).
  assert (n * (b * b) = a * a * d)%Z as E.
  { assert (Qeq (this x) (this r * this r)) as Q by (unfold x, Qcmult; cbn [this Q2Qc]; apply Qred_correct). unfold Qeq in Q. cbn [Qnum Qden Qmult] in Q. rewrite Pos2Z.inj_mul in Q. exact Q. }
  destruct (square_divides b (a * d)) as [k Hk]. { exists (n * d)%Z. assert (n * (b * b) * d = a * a * d * d)%Z by (rewrite E; ring). lia. }
  apply square_iff. exists (Z.abs k). split; [apply Z.abs_nonneg|]. rewrite <- Z.abs_mul, Z.abs_eq by nia.
  assert (b <> 0)%Z as Nb by (unfold b; discriminate). apply (Z.mul_reg_r _ _ (b * b)); [nia|].
  replace (k * k * (b * b))%Z with (k * b * (k * b))%Z by ring. rewrite <- Hk. replace (n * d * (b * b))%Z with (n * (b * b) * d)%Z by ring. rewrite E. ring.
Qed.
Lemma root_square r : (0 <= r)%Qc -> root (r * r)%Qc = r.
Proof.
  intros Hr. pose proof (root_sound _ (root_test r)) as E. pose proof (root_nonneg (r * r)%Qc) as N. set (q := root (r * r)%Qc) in *. clearbody q.
  assert ((q - r) * (q + r) = 0)%Qc as Z. { replace ((q - r) * (q + r))%Qc with (q * q - r * r)%Qc by ring. rewrite E. ring. }
  apply Qcmult_integral in Z as [Z|Z]; clear E; qlra.
Qed.
Lemma root_none x : square (Qnum (this x) * Zpos (Qden (this x))) = false -> root x = 0%Qc.
Proof. intros H. unfold root. now rewrite H. Qed.
Lemma root_ok : rooting root.
Proof.
  split; [apply (root_square 1%Qc); discriminate|]. intros h x Hh. destruct (square (Qnum (this x) * Zpos (Qden (this x)))) eqn:E.
  - pose proof (root_sound x E) as R. pose proof (root_nonneg x) as N. rewrite <- R at 1. replace (h * h * (root x * root x))%Qc with (h * root x * (h * root x))%Qc by ring.
    apply root_square. now apply Qc_mul_nonneg.
  - rewrite (root_none x E). destruct (Qc_eq_dec h 0) as [->|Nh].
    + replace (0 * 0 * x)%Qc with (0 * 0)%Qc by ring. rewrite root_square by discriminate. ring.
    + rewrite Qcmult_0_r. apply root_none. destruct (square (Qnum (this (h * h * x)%Qc) * _)) eqn:E'; auto. exfalso.
      pose proof (root_sound _ E') as R. set (q := root (h * h * x)%Qc) in *. pose proof (root_test (q / h)%Qc) as T.
      replace (q / h * (q / h))%Qc with x in T; [congruence|]. assert (q / h * (q / h) = q * q / (h * h))%Qc as -> by (field; auto). rewrite R. field. auto.
Qed.
Definition int_example : int_oracles := IntOracles flat_rule root insert_by_matrix (fun s => s).
Lemma int_example_ok : int_contract int_example.
Proof. split; [apply flat_rule_ok|]. split; [apply root_ok|]. split; [apply insert_by_matrix_ok|]. intros s um _. reflexivity. Qed.

(** * Affine geometry *)
Lemma volume_affine :
  forall O eps s orders os knots b a, gaussian (g_leggauss O) -> rooting (g_sqrt O) -> (0 < eps)%Qc ->
  sp_wf s -> positive s -> sp_axes s <> [] -> length (sp_axes s) <= dim_of (sp_cps s) ->
  Forall2 axis_knots (sp_axes s) knots -> Forall (apart eps) knots ->
  bezier_axes s \/ knotted s /\ bezier_refinement s (g_required O s) knots ->
  affine s b a -> orders_of s orders os ->
  volume O eps s orders = Some (measure (g_sqrt O) (length (sp_axes s)) (dim_of (sp_cps s)) a *
    fold_right Qcmult 1 (map (fun x => ax_upper x - ax_lower x) (sp_axes s)))%Qc.
Proof.
  intros O eps s orders os knots b a G R He W P N L K A H D Ho. destruct (quadrature_some O s orders os G N Ho) as (quad & Eq & Pq).
  rewrite (volume_spec O eps s orders knots _ G R He W P N L K A H (affine_jacobian s b a W D) quad Eq). f_equal.
  rewrite (composite_perm _ _ _ _ Pq). rewrite (composite_const _ _ (measure (g_sqrt O) (length (sp_axes s)) (dim_of (sp_cps s)) a)).
  - f_equal. clear - K. induction K as [|x us axes knots H K IH]; [reflexivity|]. cbn [map fold_right qprod]. apply axis_ends in H as (_ & -> & ->). f_equal. exact IH.
  - apply quad_total; auto. now apply orders_pos in Ho.
  - clear - K. induction K as [|x us axes knots H K IH]; constructor; auto. now apply axis_ends in H.
  - reflexivity.
Qed.

Lemma function_constant :
  forall O limit eps s c orders os knots b a, int_contract O -> (0 < eps)%Qc ->
  sp_wf s -> positive s -> sp_axes s <> [] -> length (sp_axes s) <= dim_of (sp_cps s) ->
  Forall2 axis_knots (sp_axes s) knots -> Forall (apart eps) knots ->
  knotted s -> length (sp_axes s) <= limit -> Forall (fun us => qc (-1) 1 <= nth 0 us 0)%Qc knots ->
  affine s b a -> orders_of s orders os ->
  parametric_function O limit eps s (fun _ => [c]) orders =
  Some [c * measure (g_sqrt O) (length (sp_axes s)) (dim_of (sp_cps s)) a * inj (fold_right Nat.mul 1 (map (fun us => length us - 1) knots))%nat]%Qc.
Proof.
  intros O limit eps s c orders os knots b a C He W P N L K A Hk Hl Hlo D Ho. destruct (quadrature_some O s orders os (proj1 C) N Ho) as (quad & Eq & Pq).
  rewrite (function_spec O limit eps s (fun _ => [c]) orders knots _ quad C He W P N L K A (or_intror (conj Hk (conj Hl Hlo))) (affine_jacobian s b a W D) Eq 1 (fun _ => eq_refl)).
  cbn [seq map nth]. do 2 f_equal. rewrite (unscaled_perm _ _ _ _ Pq), (unscaled_const _ _ (c * measure (g_sqrt O) (length (sp_axes s)) (dim_of (sp_cps s)) a)%Qc).
  - f_equal. f_equal. clear. induction knots as [|us knots IH]; [reflexivity|]. cbn [elements map fold_right].
    assert (forall (A B : Type) (g : A -> list B) k l, (forall x, In x l -> length (g x) = k) -> length (flat_map g l) = length l * k) as F.
    { clear. induction l as [|x l IH]; intros H; [reflexivity|]. cbn [flat_map length]. rewrite app_length, IH, H; auto; [now left|intros; apply H; now right]. }
    rewrite (F _ _ _ (fold_right Nat.mul 1 (map (fun us => length us - 1) knots))) by (intros; now rewrite map_length).
    rewrite combine_length. f_equal. destruct us; cbn [tl length]; lia.
  - apply quad_total; [apply C|]. now apply orders_pos in Ho.
  - reflexivity.
Qed.
Lemma apart_unit eps : (eps < 1)%Qc -> apart eps [0; 1]%Qc.
Proof.
  intros H x y Hx Hy. assert (eps <= qabs (0 - 1))%Qc as A by (change (eps <= 1)%Qc; now apply Qclt_le_weak). assert (eps <= qabs (1 - 0))%Qc as B by (change (eps <= 1)%Qc; now apply Qclt_le_weak).
  destruct Hx as [<-|[<-|[]]], Hy as [<-|[<-|[]]]; auto.
Qed.
