(** Proofs about derivatives of splines. *)
From Coq Require Import List Arith Lia QArith Qcanon.
From Verif Require Import Base BaseQc S_Grid S_Spline P_Spline S_Value P_Value S_Deriv.
Import ListNotations.
Local Open Scope Qc_scope.

(** * Absolute values *)
Lemma qabs_pos_eq x : 0 <= x -> qabs x = x.
Proof. unfold qabs. destruct (Qclt_le_dec x 0); intros; [exfalso; qlra|auto]. Qed.
Lemma qabs_neg_eq x : x <= 0 -> qabs x = - x.
Proof. unfold qabs. destruct (Qclt_le_dec x 0); intros; auto. assert (x = 0) as -> by (apply Qcle_antisym; auto). reflexivity. Qed.
Lemma qabs_mul x y : qabs (x * y) = qabs x * qabs y.
Proof.
  destruct (Qclt_le_dec x 0) as [Hx|Hx], (Qclt_le_dec y 0) as [Hy|Hy];
    try (pose proof (Qclt_le_weak _ _ Hx) as Hx'); try (pose proof (Qclt_le_weak _ _ Hy) as Hy').
  - rewrite (qabs_neg_eq x), (qabs_neg_eq y), qabs_pos_eq; auto; [ring|]. pose proof (Qc_mul_nonneg (- x) (- y)). qnra.
  - rewrite (qabs_neg_eq x), (qabs_pos_eq y), qabs_neg_eq; auto; [ring|]. pose proof (Qc_mul_nonneg (- x) y). qnra.
  - rewrite (qabs_pos_eq x), (qabs_neg_eq y), qabs_neg_eq; auto; [ring|]. pose proof (Qc_mul_nonneg x (- y)). qnra.
  - rewrite !qabs_pos_eq; auto. now apply Qc_mul_nonneg.
Qed.
Lemma qabs_add x y : qabs (x + y) <= qabs x + qabs y.
Proof. unfold qabs. destruct (Qclt_le_dec x 0), (Qclt_le_dec y 0), (Qclt_le_dec (x + y) 0); qlra. Qed.
Lemma qabs_opp x : qabs (- x) = qabs x.
Proof. replace (- x) with ((- (1)) * x) by ring. rewrite qabs_mul. replace (qabs (- (1))) with 1 by reflexivity. ring. Qed.
Lemma qabs_le_0 x : qabs x <= 0 -> x = 0.
Proof. unfold qabs. destruct (Qclt_le_dec x 0); intros; apply Qcle_antisym; qlra. Qed.
Lemma qabs_gt_0 x : x <> 0 -> 0 < qabs x.
Proof. intros H. destruct (Qclt_le_dec 0 (qabs x)); auto. exfalso. apply H. now apply qabs_le_0. Qed.

Ltac closer := match goal with H : qabs _ < _ |- _ => solve [apply (Qclt_le_trans _ _ _ H); assumption] end.

(** * Continuity *)
Definition cont (f : Qc -> Qc) (x : Qc) : Prop :=
  forall e, 0 < e -> exists r, 0 < r /\ forall y, qabs (y - x) < r -> qabs (f y - f x) <= e.
Lemma two_radii a b : 0 < a -> 0 < b -> exists r, 0 < r /\ r <= a /\ r <= b.
Proof. intros Ha Hb. destruct (Qclt_le_dec a b); [exists a|exists b]; (split; [auto|split; qlra]). Qed.
Lemma half_pos e : 0 < e -> 0 < e * qc 1 2 /\ e * qc 1 2 + e * qc 1 2 = e.
Proof. intros H. split; [apply Qc_mul_pos; [auto|reflexivity]|]. replace (e * qc 1 2 + e * qc 1 2) with (e * (qc 1 2 + qc 1 2)) by ring.
  replace (qc 1 2 + qc 1 2) with 1 by (apply Qc_is_canon; reflexivity). ring. Qed.
Lemma cont_const c x : cont (fun _ => c) x.
Proof. intros e He. exists 1. split; [reflexivity|]. intros y _. replace (c - c) with 0 by ring. apply Qclt_le_weak, He. Qed.
Lemma cont_id x : cont (fun y => y) x.
Proof. intros e He. exists e. split; auto. intros y H. now apply Qclt_le_weak. Qed.
Lemma cont_add f g x : cont f x -> cont g x -> cont (fun y => f y + g y) x.
Proof.
  intros Hf Hg e He. destruct (half_pos e He) as [Hh Ee]. destruct (Hf _ Hh) as (r1 & R1 & K1), (Hg _ Hh) as (r2 & R2 & K2).
  destruct (two_radii _ _ R1 R2) as (r & Hr & L1 & L2). exists r. split; auto. intros y Hy.
  assert (qabs (f y - f x) <= e * qc 1 2) as A by (apply K1; now apply Qclt_le_trans with r).
  assert (qabs (g y - g x) <= e * qc 1 2) as B by (apply K2; now apply Qclt_le_trans with r).
  replace (f y + g y - (f x + g x)) with ((f y - f x) + (g y - g x)) by ring. rewrite <- Ee.
  eapply Qcle_trans; [apply qabs_add|]. now apply Qcplus_le_compat.
Qed.
Lemma cont_mul f g x : cont f x -> cont g x -> cont (fun y => f y * g y) x.
Proof.
  intros Hf Hg e He. destruct (half_pos e He) as [Hh Ee].
  pose proof (qabs_nonneg (f x)) as F0. pose proof (qabs_nonneg (g x)) as G0.
  assert (0 < qabs (g x) + 1) as Pg by qlra. assert (0 < qabs (f x) + 1) as Pf by qlra.
  assert (0 < e * qc 1 2 * / (qabs (g x) + 1)) as E1 by (apply Qc_mul_pos; [auto|now apply Qc_inv_pos]).
  assert (0 < e * qc 1 2 * / (qabs (f x) + 1)) as E2 by (apply Qc_mul_pos; [auto|now apply Qc_inv_pos]).
  destruct (Hf _ E1) as (r1 & R1 & K1), (Hg _ E2) as (r2 & R2 & K2), (Hg 1 ltac:(reflexivity)) as (r3 & R3 & K3).
  destruct (two_radii _ _ R1 R2) as (r' & Hr' & L1 & L2). destruct (two_radii _ _ Hr' R3) as (r & Hr & L' & L3).
  exists r. split; auto. intros y Hy.
  assert (qabs (f y - f x) <= e * qc 1 2 * / (qabs (g x) + 1)) as A by (apply K1; eapply Qclt_le_trans; [exact Hy|]; now apply Qcle_trans with r').
  assert (qabs (g y - g x) <= e * qc 1 2 * / (qabs (f x) + 1)) as B by (apply K2; eapply Qclt_le_trans; [exact Hy|]; now apply Qcle_trans with r').
  assert (qabs (g y - g x) <= 1) as C by (apply K3; now apply Qclt_le_trans with r).
  assert (qabs (g y) <= qabs (g x) + 1) as D.
  { replace (g y) with ((g y - g x) + g x) by ring. pose proof (qabs_add (g y - g x) (g x)). qlra. }
  replace (f y * g y - f x * g x) with ((f y - f x) * g y + f x * (g y - g x)) by ring.
  eapply Qcle_trans; [apply qabs_add|]. rewrite !qabs_mul, <- Ee.
  apply Qcplus_le_compat.
  - apply Qcle_trans with (e * qc 1 2 * / (qabs (g x) + 1) * (qabs (g x) + 1)).
    + apply Qcle_trans with (qabs (f y - f x) * (qabs (g x) + 1)).
      * rewrite (Qcmult_comm (qabs (f y - f x))), (Qcmult_comm (qabs (f y - f x))). apply Qcmult_le_compat_r; [auto|apply qabs_nonneg].
      * apply Qcmult_le_compat_r; [auto|now apply Qclt_le_weak].
    + rewrite <- Qcmult_assoc, (Qcmult_comm (/ _)), Qcmult_inv_r; [rewrite Qcmult_1_r; apply Qcle_refl|].
      intro Z. rewrite Z in Pg. discriminate Pg.
  - apply Qcle_trans with ((qabs (f x) + 1) * (e * qc 1 2 * / (qabs (f x) + 1))).
    + apply Qcle_trans with ((qabs (f x) + 1) * qabs (g y - g x)).
      * apply Qcmult_le_compat_r; [qlra|apply qabs_nonneg].
      * rewrite !(Qcmult_comm (qabs (f x) + 1)). apply Qcmult_le_compat_r; [auto|now apply Qclt_le_weak].
    + rewrite Qcmult_comm, <- Qcmult_assoc, (Qcmult_comm (/ _)), Qcmult_inv_r; [rewrite Qcmult_1_r; apply Qcle_refl|].
      intro Z. rewrite Z in Pf. discriminate Pf.
Qed.
Lemma cont_away g x : cont g x -> g x <> 0 -> exists r, 0 < r /\ forall y, qabs (y - x) < r -> qabs (g x) * qc 1 2 <= qabs (g y).
Proof.
  intros Hg Hx. pose proof (qabs_gt_0 _ Hx) as P. destruct (half_pos _ P) as [Hh Ee]. destruct (Hg _ Hh) as (r & Hr & K).
  exists r. split; auto. intros y Hy. specialize (K y Hy). pose proof (qabs_add (g x - g y) (g y)) as A.
  replace (g x - g y + g y) with (g x) in A by ring. rewrite qabs_sub_sym in K.
  set (h := qabs (g x) * qc 1 2) in *. clearbody h. clear Hg. qlra.
Qed.
Lemma cont_inv g x : cont g x -> g x <> 0 -> cont (fun y => / g y) x.
Proof.
  intros Hg Hx e He. pose proof (qabs_gt_0 _ Hx) as P. destruct (half_pos _ P) as [Hh Ee].
  destruct (cont_away g x Hg Hx) as (r1 & R1 & K1). set (h := qabs (g x) * qc 1 2) in *.
  assert (0 < e * (h * qabs (g x))) as E1 by (apply Qc_mul_pos; [auto|now apply Qc_mul_pos]).
  destruct (Hg _ E1) as (r2 & R2 & K2). destruct (two_radii _ _ R1 R2) as (r & Hr & L1 & L2). exists r. split; auto. intros y Hy.
  assert (h <= qabs (g y)) as A by (apply K1; now apply Qclt_le_trans with r).
  assert (qabs (g y - g x) <= e * (h * qabs (g x))) as B by (apply K2; now apply Qclt_le_trans with r).
  assert (g y <> 0) as Ny. { intro Z. rewrite Z in A. replace (qabs 0) with 0 in A by reflexivity. clear - A Hh. qlra. }
  replace (/ g y - / g x) with ((g x - g y) * / (g y * g x)) by (field; auto).
  rewrite qabs_mul, qabs_sub_sym.
  assert (0 < qabs (g y * g x)) as Q by (apply qabs_gt_0; intro Z; apply Qcmult_integral in Z as [Z|Z]; auto).
  assert (qabs (/ (g y * g x)) = / qabs (g y * g x)) as ->.
  { assert (g y * g x <> 0) as N by (intro Z; apply Qcmult_integral in Z as [Z|Z]; auto).
    assert (qabs (/ (g y * g x)) * qabs (g y * g x) = 1) as E.
    { rewrite <- qabs_mul, Qcmult_comm, Qcmult_inv_r by auto. reflexivity. }
    assert (qabs (g y * g x) <> 0) as N' by (intro Z; rewrite Z in Q; discriminate Q).
    rewrite <- (Qcmult_1_r (qabs (/ (g y * g x)))), <- (Qcmult_inv_r (qabs (g y * g x))) by auto. rewrite Qcmult_assoc, E. ring. }
  apply Qcle_trans with (e * qabs (g y * g x) * / qabs (g y * g x)).
  - apply Qcmult_le_compat_r; [|apply Qclt_le_weak; now apply Qc_inv_pos]. eapply Qcle_trans; [exact B|]. rewrite qabs_mul.
    rewrite !(Qcmult_comm e). apply Qcmult_le_compat_r; [|now apply Qclt_le_weak]. apply Qcmult_le_compat_r; [auto|now apply Qclt_le_weak].
  - rewrite <- Qcmult_assoc, Qcmult_inv_r; [rewrite Qcmult_1_r; apply Qcle_refl|]. intro Z. rewrite Z in Q. discriminate Q.
Qed.

(** * Derivatives: the slope function is continuous *)
Definition der (f : Qc -> Qc) (x g : Qc) : Prop :=
  exists phi r, 0 < r /\ cont phi x /\ phi x = g /\ forall y, qabs (y - x) < r -> f y - f x = phi y * (y - x).
Lemma der_is_deriv f x g : der f x g -> is_deriv f x g.
Proof.
  intros (phi & r & Hr & C & E & K) e He. destruct (C e He) as (r2 & R2 & K2). destruct (two_radii _ _ Hr R2) as (r' & Hr' & L1 & L2).
  exists r'. split; auto. intros y Hy. rewrite K by now apply Qclt_le_trans with r'.
  replace (phi y * (y - x) - g * (y - x)) with ((phi y - phi x) * (y - x)) by (rewrite E; ring). rewrite qabs_mul.
  apply Qcmult_le_compat_r; [apply K2; now apply Qclt_le_trans with r'|apply qabs_nonneg].
Qed.
Lemma der_ext f f' x g r : 0 < r -> (forall y, qabs (y - x) < r -> f y = f' y) -> der f x g -> der f' x g.
Proof.
  intros Hr H (phi & r1 & R1 & C & E & K). destruct (two_radii _ _ Hr R1) as (r' & Hr' & L1 & L2).
  exists phi, r'. split; auto. split; auto. split; auto. intros y Hy.
  rewrite <- H by now apply Qclt_le_trans with r'. rewrite <- (H x).
  - apply K. now apply Qclt_le_trans with r'.
  - replace (x - x) with 0 by ring. exact Hr.
Qed.
Lemma der_eq f x g g' : g = g' -> der f x g -> der f x g'.
Proof. now intros ->. Qed.
Lemma der_const c x : der (fun _ => c) x 0.
Proof. exists (fun _ => 0), 1. split; [reflexivity|]. split; [apply cont_const|]. split; auto. intros. ring. Qed.
Lemma der_id x : der (fun y => y) x 1.
Proof. exists (fun _ => 1), 1. split; [reflexivity|]. split; [apply cont_const|]. split; auto. intros. ring. Qed.
Lemma der_add f f' x g g' : der f x g -> der f' x g' -> der (fun y => f y + f' y) x (g + g').
Proof.
  intros (p & r & Hr & C & E & K) (p' & r' & Hr' & C' & E' & K'). destruct (two_radii _ _ Hr Hr') as (q & Hq & L & L').
  exists (fun y => p y + p' y), q. split; auto. split; [now apply cont_add|]. split; [now rewrite E, E'|]. intros y Hy.
  replace (f y + f' y - (f x + f' x)) with ((f y - f x) + (f' y - f' x)) by ring.
  rewrite K, K' by (closer). ring.
Qed.
Lemma der_cont f x g : der f x g -> exists r, 0 < r /\ exists f', cont f' x /\ f' x = f x /\ forall y, qabs (y - x) < r -> f y = f' y.
Proof.
  intros (p & r & Hr & C & E & K). exists r. split; auto. exists (fun y => f x + p y * (y + - x)). split; [|split].
  - apply cont_add; [apply cont_const|]. apply cont_mul; auto. apply cont_add; [apply cont_id|apply cont_const].
  - ring.
  - intros y Hy. replace (y + - x) with (y - x) by ring. rewrite <- K by auto. ring.
Qed.
Lemma der_mul f f' x g g' : der f x g -> der f' x g' -> der (fun y => f y * f' y) x (g * f' x + f x * g').
Proof.
  intros H H'. destruct (der_cont _ _ _ H') as (r0 & R0 & h & Ch & Eh & Kh).
  destruct H as (p & r & Hr & C & E & K), H' as (p' & r' & Hr' & C' & E' & K').
  destruct (two_radii _ _ Hr Hr') as (q & Hq & L & L'). destruct (two_radii _ _ R0 Hq) as (q' & Hq' & L0 & Lq).
  exists (fun y => p y * h y + f x * p' y), q'. split; auto. split; [|split].
  - apply cont_add; apply cont_mul; auto. apply cont_const.
  - now rewrite E, E', Eh.
  - intros y Hy. assert (qabs (y - x) < q) as Hy' by (closer).
    rewrite <- (Kh y) by (closer).
    replace (f y * f' y - f x * f' x) with ((f y - f x) * f' y + f x * (f' y - f' x)) by ring.
    rewrite K, K' by (closer). ring.
Qed.
Lemma der_scale c f x g : der f x g -> der (fun y => c * f y) x (c * g).
Proof. intros H. eapply der_eq; [|apply der_mul; [apply der_const|exact H]]. cbv beta. ring. Qed.
Lemma der_inv f x g : der f x g -> f x <> 0 -> der (fun y => / f y) x (- g / (f x * f x)).
Proof.
  intros H Hx. destruct (der_cont _ _ _ H) as (r0 & R0 & h & Ch & Eh & Kh). destruct H as (p & r & Hr & C & E & K).
  assert (h x <> 0) as Nx by (now rewrite Eh). destruct (cont_away h x Ch Nx) as (r1 & R1 & K1).
  destruct (two_radii _ _ Hr R0) as (q & Hq & L & L0). destruct (two_radii _ _ R1 Hq) as (q' & Hq' & L1 & Lq).
  exists (fun y => (- (1) * p y) * (/ h y * / f x)), q'. split; auto. split; [|split].
  - apply cont_mul; [apply cont_mul; [apply cont_const|auto]|]. apply cont_mul; [now apply cont_inv|apply cont_const].
  - rewrite E, Eh. field. auto.
  - intros y Hy. assert (qabs (y - x) < q) as Hy' by (closer).
    assert (f y = h y) as Ey by (apply Kh; closer). rewrite <- Ey.
    assert (f y <> 0) as Ny.
    { rewrite Ey. intro Z. assert (qabs (h x) * qc 1 2 <= qabs (h y)) as A by (apply K1; closer).
      rewrite Z in A. replace (qabs 0) with 0 in A by reflexivity. destruct (half_pos _ (qabs_gt_0 _ Nx)) as [A' _]. clear - A A'. qlra. }
    replace (- (1) * p y * (/ f y * / f x) * (y - x)) with (- (p y * (y - x)) * (/ f y * / f x)) by ring. rewrite <- K by (closer).
    field. auto.
Qed.
Lemma der_div f f' x g g' : der f x g -> der f' x g' -> f' x <> 0 ->
  der (fun y => f y / f' y) x ((g * f' x - f x * g') / (f' x * f' x)).
Proof.
  intros H H' Hx. unfold Qcdiv at 1. eapply der_eq; [|apply (der_mul f (fun y => / f' y)); [exact H|apply der_inv; [exact H'|exact Hx]]]. cbv beta. field. auto.
Qed.
Lemma der_sum {A} (l : list A) (f : A -> Qc -> Qc) (g : A -> Qc) x :
  (forall a, In a l -> der (f a) x (g a)) -> der (fun y => qsum (map (fun a => f a y) l)) x (qsum (map g l)).
Proof.
  induction l as [|a l IH]; intros H; [apply (der_const 0)|]. cbn [map qsum fold_right]. apply (der_add (f a)); [apply H; now left|]. apply IH. intros; apply H; now right.
Qed.

(** Derivatives are unique. *)
Lemma deriv_unique f f' x g g' r0 : 0 < r0 -> (forall y, qabs (y - x) < r0 -> f y = f' y) ->
  is_deriv f x g -> is_deriv f' x g' -> g = g'.
Proof.
  intros R0 K0 D D'. destruct (Qc_eq_dec g g') as [|N]; auto. exfalso.
  assert (g - g' <> 0) as N' by (intro Z; apply N; replace g with (g - g' + g') by ring; rewrite Z; ring).
  pose proof (qabs_gt_0 _ N') as P. destruct (half_pos _ P) as [H1 E1]. destruct (half_pos _ H1) as [H2 E2].
  set (h := qabs (g - g') * qc 1 2) in *. set (e := h * qc 1 2) in *.
  destruct (D e H2) as (r1 & R1 & K1), (D' e H2) as (r2 & R2 & K2).
  destruct (two_radii _ _ R1 R2) as (r' & Hr' & L1 & L2). destruct (two_radii _ _ R0 Hr') as (r & Hr & L0 & L').
  destruct (half_pos _ Hr) as [Hh Eh]. set (k := r * qc 1 2) in *.
  assert (qabs (x + k - x) = k) as A. { replace (x + k - x) with k by ring. apply qabs_pos_eq. now apply Qclt_le_weak. }
  assert (k < r) as Hk by (clear - Hh Eh; qlra).
  assert (k < r0) as Hk0 by (apply Qclt_le_trans with r; auto). assert (k < r') as Hk' by (apply Qclt_le_trans with r; auto).
  specialize (K1 (x + k)). specialize (K2 (x + k)). rewrite A in K1, K2.
  assert (k < r1) as Hk1 by (apply Qclt_le_trans with r'; auto). assert (k < r2) as Hk2 by (apply Qclt_le_trans with r'; auto).
  specialize (K1 Hk1). specialize (K2 Hk2). replace (x + k - x) with k in * by ring.
  rewrite (K0 (x + k)) in K1 by (replace (x + k - x) with k by ring; rewrite A; auto).
  rewrite (K0 x) in K1 by (replace (x - x) with 0 by ring; exact R0).
  pose proof (qabs_add (f' (x + k) - f' x - g' * k) (- (f' (x + k) - f' x - g * k))) as T. rewrite qabs_opp in T.
  replace (f' (x + k) - f' x - g' * k + - (f' (x + k) - f' x - g * k)) with ((g - g') * k) in T by ring. rewrite qabs_mul, A in T.
  set (t1 := qabs _) in K1. change (qabs (f' (x + k) - f' x - g * k)) with t1 in T. set (t2 := qabs (f' (x + k) - f' x - g' * k)) in *.
  assert (qabs (g - g') * k <= (e + e) * k) as F by (clear - T K1 K2; qlra). rewrite E2 in F.
  assert (0 < h * k) as G by (now apply Qc_mul_pos).
  replace (qabs (g - g') * k) with (h * k + h * k) in F by (rewrite <- Qcmult_plus_distr_l, E1; ring).
  clear - F G. qlra.
Qed.

(** * Basis functions *)
Lemma der_sub f f' x g g' : der f x g -> der f' x g' -> der (fun y => f y - f' y) x (g - g').
Proof.
  intros H H'. unfold Qcminus. apply der_add; auto. apply der_scale with (c := - (1)) in H'.
  eapply der_eq; [|eapply (der_ext _ _ _ _ 1); [| |exact H']]; [ring|reflexivity|]. intros. cbv beta. ring.
Qed.
Lemma basis_der U s p : forall i u, der (fun y => basis U s p i y) u (dbasis U s p i u).
Proof.
  induction p as [|p IH]; intros i u; [exact (der_const (if Nat.eqb i s then 1 else 0) u)|]. cbn [basis dbasis].
  apply der_add.
  - unfold Qcdiv. apply (der_mul (fun y => (y - U i) * _)); [|apply IH].
    eapply der_eq; [|apply der_mul; [apply der_sub; [apply der_id|apply der_const]|apply der_const]]. cbv beta. ring.
  - unfold Qcdiv. apply (der_mul (fun y => (U (i + p + 2)%nat - y) * _)); [|apply IH].
    eapply der_eq; [|apply der_mul; [apply der_sub; [apply der_const|apply der_id]|apply der_const]]. cbv beta. ring.
Qed.
Lemma qpow_der n : forall x, der (fun y => qpow y n) x (dqpow x n).
Proof.
  induction n as [|n IH]; intros x; [exact (der_const 1 x)|]. cbn [qpow dqpow].
  eapply der_eq; [|apply der_mul; [apply der_id|apply IH]]. cbv beta. ring.
Qed.
Lemma qpow_flip_der n : forall x, der (fun y => qpow (1 - y) n) x (- dqpow (1 - x) n).
Proof.
  induction n as [|n IH]; intros x; [exact (der_const 1 x)|]. cbn [qpow dqpow].
  eapply der_eq; [|apply der_mul; [apply der_sub; [apply der_const|apply der_id]|apply IH]]. cbv beta. ring.
Qed.
Lemma bernstein_der p i t : der (fun y => bernstein p i y) t (dbernstein p i t).
Proof.
  unfold bernstein, dbernstein. eapply der_eq; [|apply (der_mul (fun y => inj (binom p i) * qpow y i));
    [apply der_scale, qpow_der|apply qpow_flip_der]]. cbv beta. ring.
Qed.
Lemma span_near kv p n s u : knot_vector p n kv -> (p <= s)%nat -> (s < n)%nat -> kn kv s < u -> u < kn kv (S s) ->
  exists r, 0 < r /\ forall y, qabs (y - u) < r -> find_span kv p n y = s.
Proof.
  intros W H1 H2 L R. destruct (two_radii (u - kn kv s) (kn kv (S s) - u)) as (r & Hr & A & B); [qlra|qlra|].
  exists r. split; auto. intros y Hy.
  assert (kn kv s < y /\ y < kn kv (S s)) as [L' R'].
  { unfold qabs in Hy. destruct (Qclt_le_dec (y - u) 0); split; qlra. }
  pose proof (kn_mono kv (proj1 (proj2 W))) as M. apply find_span_unique; auto.
  - split; [apply Qcle_trans with (kn kv s)|apply Qcle_trans with (kn kv (S s))]; try (apply M; lia); now apply Qclt_le_weak.
  - split; auto. split; auto. split; [now apply Qclt_trans with y|]. split; [now apply Qclt_le_weak|]. now left.
Qed.
Lemma ax_der a u i : ax_wf a -> ax_inside a u -> der (fun y => ax_fun a y i) u (ax_dfun a u i).
Proof.
  intros W H. destruct a as [p|p kv]; [apply bernstein_der|]. cbn [ax_fun ax_dfun ax_inside ax_wf] in *. destruct H as (s & H1 & H2 & H3 & H4).
  set (n := ax_n (KnotAxis p kv)) in *. destruct (span_near kv p n s u W H1 H2 H3 H4) as (r & Hr & K).
  assert (find_span kv p n u = s) as E. { apply K. replace (u - u) with 0 by ring. exact Hr. }
  eapply der_ext; [exact Hr| |rewrite E; apply basis_der]. intros y Hy. cbv beta. unfold bspline_basis. now rewrite K.
Qed.

(** * Tensor products *)
Lemma tensor_der (pre : list (nat * (nat -> Qc))) n (f : Qc -> nat -> Qc) (g : nat -> Qc) post c x :
  (forall i, (i < n)%nat -> der (fun y => f y i) x (g i)) ->
  der (fun y => tensor (pre ++ (n, f y) :: post) c) x (tensor (pre ++ (n, g) :: post) c).
Proof.
  intros H. revert c. induction pre as [|[k w] pre IH]; intros c; cbn [app tensor].
  - apply (der_sum (seq 0 n) (fun i y => f y i * tensor post (fun ix => c (i :: ix)))). intros i Hi. apply in_seq in Hi.
    eapply der_eq; [|apply der_mul; [apply H; lia|apply der_const]]. cbv beta. ring.
  - apply (der_sum (seq 0 k) (fun i y => w i * tensor (pre ++ (n, f y) :: post) (fun ix => c (i :: ix)))). intros i _.
    apply der_scale. apply IH.
Qed.
Lemma put_length j x us : (j < length us)%nat -> length (put j x us) = length us.
Proof. intros H. unfold put. rewrite app_length, firstn_length. cbn [length]. rewrite skipn_length. lia. Qed.
Lemma put_same j us : (j < length us)%nat -> put j (nth j us 0) us = us.
Proof.
  intros H. unfold put. revert us H. induction j as [|j IH]; intros [|u us] H; cbn [length] in *; try lia; cbn [firstn skipn nth app]; auto.
  f_equal. apply IH. lia.
Qed.
Lemma basis_put axes us j x : length axes = length us -> (j < length us)%nat ->
  sp_basis axes (put j x us) =
  sp_basis (firstn j axes) (firstn j us) ++ (ax_n (nth j axes (BezierAxis 0)), ax_fun (nth j axes (BezierAxis 0)) x)
    :: sp_basis (skipn (S j) axes) (skipn (S j) us).
Proof.
  intros L H. unfold put. revert us j L H. induction axes as [|a axes IH]; intros [|u us] j L H; cbn [length] in *; try lia.
  destruct j as [|j]; [reflexivity|]. cbn [firstn skipn nth app]. unfold sp_basis in *. cbn [combine map app]. f_equal. apply IH; lia.
Qed.
Lemma dbasis_split axes us j : length axes = length us -> (j < length us)%nat ->
  sp_dbasis axes j us =
  sp_basis (firstn j axes) (firstn j us) ++ (ax_n (nth j axes (BezierAxis 0)), ax_dfun (nth j axes (BezierAxis 0)) (nth j us 0))
    :: sp_basis (skipn (S j) axes) (skipn (S j) us).
Proof.
  intros L H. unfold sp_dbasis.
  assert (forall o axes us j, length axes = length us -> (j < length us)%nat ->
    map (fun kau : nat * (paxis * Qc) => let '(k, (a, u)) := kau in (ax_n a, if Nat.eqb k (o + j) then ax_dfun a u else ax_fun a u))
      (combine (seq o (length axes)) (combine axes us)) =
    sp_basis (firstn j axes) (firstn j us) ++ (ax_n (nth j axes (BezierAxis 0)), ax_dfun (nth j axes (BezierAxis 0)) (nth j us 0))
    :: sp_basis (skipn (S j) axes) (skipn (S j) us)) as G.
  { clear. intros o axes. revert o. induction axes as [|a axes IH]; intros o [|u us] j L H; cbn [length] in *; try lia.
    cbn [seq combine map]. destruct j as [|j].
    - rewrite Nat.add_0_r, Nat.eqb_refl. cbn [firstn skipn nth app sp_basis combine map]. f_equal. unfold sp_basis.
      assert (forall o' axes us, (o < o')%nat -> map (fun kau : nat * (paxis * Qc) => let '(k, (a, u)) := kau in
        (ax_n a, if Nat.eqb k o then ax_dfun a u else ax_fun a u)) (combine (seq o' (length axes)) (combine axes us)) =
        map (fun au => (ax_n (fst au), ax_fun (fst au) (snd au))) (combine axes us)) as G.
      { clear. intros o' axes. revert o'. induction axes as [|a axes IH]; intros o' [|u us] H; try reflexivity. cbn [length seq combine map fst snd].
        destruct (Nat.eqb_spec o' o); [lia|]. f_equal. apply IH. lia. }
      apply G. lia.
    - cbn [firstn skipn nth app sp_basis combine map fst snd]. destruct (Nat.eqb_spec o (o + S j)); [lia|]. f_equal.
      replace (o + S j)%nat with (S o + j)%nat by lia. apply IH; lia. }
  apply (G 0%nat axes us j L H).
Qed.
Theorem value_deriv s us j d : sp_wf s -> Forall2 ax_inside (sp_axes s) us -> (j < length us)%nat -> sp_denominator s us <> 0 ->
  der (fun y => sp_value s (put j y us) d) (nth j us 0) (sp_deriv s j us d).
Proof.
  intros (W & _) I Hj Hd. pose proof (Forall2_len _ _ _ I) as L. unfold sp_value, sp_deriv.
  set (a := nth j (sp_axes s) (BezierAxis 0)).
  assert (forall i, der (fun y => ax_fun a y i) (nth j us 0) (ax_dfun a (nth j us 0) i)) as Da.
  { intros i. apply ax_der.
    - apply (proj1 (Forall_forall _ _) W). apply nth_In. lia.
    - clear - I L Hj. subst a. revert j Hj. induction I as [|a u axes us Ia I IH]; intros j Hj; cbn [length] in *; [lia|].
      destruct j; [exact Ia|]. cbn [nth]. apply IH; [auto|]. lia. }
  assert (forall c, der (fun y => tensor (sp_basis (sp_axes s) (put j y us)) c) (nth j us 0) (tensor (sp_dbasis (sp_axes s) j us) c)) as T.
  { intros c. rewrite dbasis_split by auto. eapply der_ext with (r := 1); [reflexivity| |apply tensor_der; intros; apply Da].
    intros y _. cbv beta. now rewrite basis_put. }
  destruct (sp_weights s) as [ws|] eqn:Ew; [|apply T].
  pose proof (der_div _ _ _ _ _ (T (fun ix => nth (flat_id (sp_res s) ix) ws 0 * net (sp_res s) (sp_cps s) d ix))
    (T (fun ix => nth (flat_id (sp_res s) ix) ws 0))) as Q. cbv beta in Q. rewrite put_same in Q by auto. apply Q.
  unfold sp_denominator in Hd. now rewrite Ew in Hd.
Qed.
