(** Canonical rationals: order tactics and finite sums.  Library file. *)
From Coq Require Import QArith Qcanon List Lia ZArith Lqa Permutation.
Import ListNotations.
Local Open Scope Qc_scope.

Lemma this_add x y : (this (x + y) == this x + this y)%Q.
Proof. apply Qred_correct. Qed.
Lemma this_mul x y : (this (x * y) == this x * this y)%Q.
Proof. apply Qred_correct. Qed.
Lemma this_opp x : (this (- x) == - this x)%Q.
Proof. apply Qred_correct. Qed.
Lemma this_sub x y : (this (x - y) == this x - this y)%Q.
Proof. unfold Qcminus. rewrite this_add, this_opp. reflexivity. Qed.
Lemma this_Q2Qc q : (this (Q2Qc q) == q)%Q.
Proof. apply Qred_correct. Qed.
Lemma this_inv x : (this (/ x) == / this x)%Q.
Proof. apply Qred_correct. Qed.
Lemma this_div x y : (this (x / y) == this x / this y)%Q.
Proof. unfold Qcdiv. rewrite this_mul, this_inv. reflexivity. Qed.
Lemma eq_this x y : x = y <-> (this x == this y)%Q.
Proof. split; [intros ->; reflexivity|apply Qc_is_canon]. Qed.
Lemma nle_lt x y : ~ x <= y <-> y < x.
Proof. split; [apply Qcnot_le_lt | apply Qclt_not_le]. Qed.
Lemma nlt_le x y : ~ x < y <-> y <= x.
Proof. split; [apply Qcnot_lt_le | apply Qcle_not_lt]. Qed.

(** Move a goal about Qc (no inverses) to Q. *)
Ltac qcq :=
  repeat match goal with
  | H : ~ (_ <= _)%Qc |- _ => rewrite nle_lt in H
  | H : ~ (_ < _)%Qc |- _ => rewrite nlt_le in H
  end;
  try rewrite nle_lt; try rewrite nlt_le;
  rewrite ?eq_this in *; unfold Qcle, Qclt in *;
  repeat progress (rewrite ?this_add, ?this_mul, ?this_sub, ?this_opp, ?this_Q2Qc in * ).
Ltac qlra := qcq; lra.
Ltac qnra := qcq; nra.

(** Injection of naturals. *)
Definition inj (n : nat) : Qc := Q2Qc (inject_Z (Z.of_nat n)).

Lemma inj_0 : inj 0 = 0.
Proof. reflexivity. Qed.
Lemma inj_1 : inj 1 = 1.
Proof. reflexivity. Qed.
Lemma inj_S n : inj (S n) = inj n + 1.
Proof.
  unfold inj. apply Qc_is_canon. rewrite this_add, !this_Q2Qc.
  rewrite Nat2Z.inj_succ. unfold Z.succ. rewrite inject_Z_plus. reflexivity.
Qed.
Lemma inj_add a b : inj (a + b) = inj a + inj b.
Proof.
  induction a; cbn [Nat.add]. - rewrite inj_0. ring. - rewrite !inj_S, IHa. ring.
Qed.
Lemma inj_mul a b : inj (a * b) = inj a * inj b.
Proof.
  induction a; cbn [Nat.mul]. - rewrite inj_0. ring.
  - rewrite inj_add, inj_S, IHa. ring.
Qed.
Lemma inj_nonneg n : 0 <= inj n.
Proof. induction n; [apply Qcle_refl|]. rewrite inj_S. qlra. Qed.
Lemma inj_pos n : (0 < n)%nat -> 0 < inj n.
Proof. intros. destruct n; [lia|]. rewrite inj_S. pose proof (inj_nonneg n). qlra. Qed.
Lemma inj_le a b : (a <= b)%nat -> inj a <= inj b.
Proof.
  intros H. replace b with (a + (b - a))%nat by lia. rewrite inj_add.
  pose proof (inj_nonneg (b - a)). qlra.
Qed.
Lemma inj_lt a b : (a < b)%nat -> inj a < inj b.
Proof.
  intros H. replace b with (a + (b - a))%nat by lia. rewrite inj_add.
  pose proof (inj_pos (b - a) ltac:(lia)). qlra.
Qed.
Lemma inj_inj a b : inj a = inj b -> a = b.
Proof.
  intros E. destruct (Nat.lt_trichotomy a b) as [H|[H|H]]; auto;
  apply inj_lt in H; rewrite E in H; exfalso; qlra.
Qed.
Lemma inj_neq0 n : (0 < n)%nat -> inj n <> 0.
Proof. intros H E. apply inj_pos in H. rewrite E in H. qlra. Qed.
Lemma inj_sub a b : (b <= a)%nat -> inj (a - b) = inj a - inj b.
Proof. intros H. replace a with ((a - b) + b)%nat at 2 by lia. rewrite inj_add. ring. Qed.

Lemma Qc_neq_sub x y : x <> y -> x - y <> 0.
Proof. intros H E. apply H. replace x with (x - y + y) by ring. rewrite E. ring. Qed.
Lemma Qc_lt_neq x y : x < y -> y - x <> 0.
Proof. intros H E. apply (Qclt_not_eq x y H). replace y with (y - x + x) by ring. rewrite E. ring. Qed.

Lemma Qc_mul_nonneg x y : 0 <= x -> 0 <= y -> 0 <= x * y.
Proof. intros. qnra. Qed.
Lemma Qc_mul_pos x y : 0 < x -> 0 < y -> 0 < x * y.
Proof. intros. qnra. Qed.
Lemma Qc_inv_pos x : 0 < x -> 0 < / x.
Proof.
  intros H. unfold Qclt in *. rewrite this_inv.
  change (this 0) with 0%Q in *. now apply Qinv_lt_0_compat.
Qed.
Lemma Qc_inv_0 : / (0 : Qc) = 0.
Proof. reflexivity. Qed.
Lemma Qc_inv_nonneg x : 0 <= x -> 0 <= / x.
Proof.
  intros H. apply Qcle_lt_or_eq in H. destruct H as [H|<-].
  - apply Qclt_le_weak. now apply Qc_inv_pos.
  - rewrite Qc_inv_0. apply Qcle_refl.
Qed.
Lemma Qc_div_nonneg x y : 0 <= x -> 0 <= y -> 0 <= x / y.
Proof. intros. apply Qc_mul_nonneg; auto. now apply Qc_inv_nonneg. Qed.
Lemma Qc_div_0 x : x / 0 = 0.
Proof. unfold Qcdiv. rewrite Qc_inv_0. ring. Qed.
Lemma Qc_div_le x y z : 0 < z -> x <= y * z -> x / z <= y.
Proof.
  intros Hz H. assert (x = (x / z) * z) by (field; intros E; rewrite E in Hz; qlra).
  rewrite H0 in H. destruct (Qclt_le_dec y (x / z)) as [Hl|]; auto. exfalso. qnra.
Qed.
Lemma Qc_le_div x y z : 0 < z -> x * z <= y -> x <= y / z.
Proof.
  intros Hz H. assert (y = (y / z) * z) by (field; intros E; rewrite E in Hz; qlra).
  rewrite H0 in H. destruct (Qclt_le_dec (y / z) x) as [Hl|]; auto. exfalso. qnra.
Qed.
Lemma Qc_le_dec (x y : Qc) : {x <= y} + {~ x <= y}.
Proof. destruct (Qclt_le_dec y x); [right|left]; auto. now apply Qclt_not_le. Qed.
Lemma Qc_lt_dec (x y : Qc) : {x < y} + {~ x < y}.
Proof. destruct (Qclt_le_dec x y); [left|right]; auto. now apply Qcle_not_lt. Qed.

(** Boolean comparisons used by the models. *)
Definition qleb (x y : Qc) : bool := if Qclt_le_dec y x then false else true.
Definition qltb (x y : Qc) : bool := if Qclt_le_dec x y then true else false.
Definition qeqb (x y : Qc) : bool := if Qc_eq_dec x y then true else false.
Lemma qleb_spec x y : Bool.reflect (x <= y) (qleb x y).
Proof. unfold qleb. destruct (Qclt_le_dec y x); constructor; auto. now apply Qclt_not_le. Qed.
Lemma qltb_spec x y : Bool.reflect (x < y) (qltb x y).
Proof. unfold qltb. destruct (Qclt_le_dec x y); constructor; auto. now apply Qcle_not_lt. Qed.
Lemma qeqb_spec x y : Bool.reflect (x = y) (qeqb x y).
Proof. unfold qeqb. destruct (Qc_eq_dec x y); constructor; auto. Qed.

Definition qabs (x : Qc) : Qc := if Qclt_le_dec x 0 then - x else x.
Lemma qabs_nonneg x : 0 <= qabs x.
Proof. unfold qabs. destruct (Qclt_le_dec x 0); qlra. Qed.
Lemma qabs_sub_sym x y : qabs (x - y) = qabs (y - x).
Proof.
  unfold qabs. destruct (Qclt_le_dec (x - y) 0), (Qclt_le_dec (y - x) 0); qlra.
Qed.

(** Finite sums. *)
Fixpoint qsum (l : list Qc) : Qc :=
  match l with [] => 0 | x :: l => x + qsum l end.

Lemma qsum_app a b : qsum (a ++ b) = qsum a + qsum b.
Proof. induction a; cbn; [ring|]. rewrite IHa. ring. Qed.
Lemma qsum_perm a b : Permutation a b -> qsum a = qsum b.
Proof. induction 1; cbn; try congruence; ring. Qed.
Lemma qsum_map_add {A} (f g : A -> Qc) l :
  qsum (map (fun x => f x + g x) l) = qsum (map f l) + qsum (map g l).
Proof. induction l; cbn; [ring|]. rewrite IHl. ring. Qed.
Lemma qsum_map_mul_l {A} c (f : A -> Qc) l :
  qsum (map (fun x => c * f x) l) = c * qsum (map f l).
Proof. induction l; cbn; [ring|]. rewrite IHl. ring. Qed.
Lemma qsum_map_mul_r {A} c (f : A -> Qc) l :
  qsum (map (fun x => f x * c) l) = qsum (map f l) * c.
Proof. induction l; cbn; [ring|]. rewrite IHl. ring. Qed.
Lemma qsum_map_sub {A} (f g : A -> Qc) l :
  qsum (map (fun x => f x - g x) l) = qsum (map f l) - qsum (map g l).
Proof. induction l; cbn; [ring|]. rewrite IHl. ring. Qed.
Lemma qsum_zero {A} (f : A -> Qc) l :
  (forall x, In x l -> f x = 0) -> qsum (map f l) = 0.
Proof.
  induction l; cbn; intros H; auto. rewrite H by auto. rewrite IHl; [ring|].
  intros; apply H; auto.
Qed.
Lemma qsum_ext {A} (f g : A -> Qc) l :
  (forall x, In x l -> f x = g x) -> qsum (map f l) = qsum (map g l).
Proof. intros. f_equal. now apply map_ext_in. Qed.
Lemma qsum_nonneg {A} (f : A -> Qc) l :
  (forall x, In x l -> 0 <= f x) -> 0 <= qsum (map f l).
Proof.
  induction l; cbn; intros H; [apply Qcle_refl|].
  pose proof (H a (or_introl eq_refl)).
  assert (0 <= qsum (map f l)) by (apply IHl; auto). qlra.
Qed.
Lemma qsum_swap {A B} (f : A -> B -> Qc) l m :
  qsum (map (fun x => qsum (map (f x) m)) l) =
  qsum (map (fun y => qsum (map (fun x => f x y) l)) m).
Proof.
  induction l; cbn.
  - symmetry. now apply qsum_zero.
  - rewrite IHl. rewrite <- qsum_map_add. reflexivity.
Qed.
Lemma qsum_flat_map {A B} (f : B -> Qc) (g : A -> list B) l :
  qsum (map f (flat_map g l)) = qsum (map (fun x => qsum (map f (g x))) l).
Proof. induction l; cbn; auto. now rewrite map_app, qsum_app, IHl. Qed.
Lemma qsum_single (f : nat -> Qc) n k :
  (k < n)%nat -> (forall i, (i < n)%nat -> i <> k -> f i = 0) ->
  qsum (map f (seq 0 n)) = f k.
Proof.
  intros Hk H. replace n with (k + S (n - S k))%nat by lia.
  rewrite seq_app, map_app, qsum_app. cbn [seq map qsum Nat.add].
  rewrite (qsum_zero f (seq 0 k)), (qsum_zero f (seq (S k) _)).
  - ring.
  - intros x Hx. apply in_seq in Hx. apply H; lia.
  - intros x Hx. apply in_seq in Hx. apply H; lia.
Qed.
Lemma qsum_shift (f : nat -> Qc) s n :
  qsum (map f (seq (S s) n)) = qsum (map (fun i => f (S i)) (seq s n)).
Proof. now rewrite <- seq_shift, map_map. Qed.
Lemma qsum_seq_S (f : nat -> Qc) n :
  qsum (map f (seq 0 (S n))) = qsum (map f (seq 0 n)) + f n.
Proof. rewrite seq_S, map_app, qsum_app. cbn. ring. Qed.
Lemma qsum_seq_0 (f : nat -> Qc) n :
  qsum (map f (seq 0 (S n))) = f 0%nat + qsum (map (fun i => f (S i)) (seq 0 n)).
Proof. cbn [seq map qsum]. now rewrite qsum_shift. Qed.
Lemma qsum_const {A} c (l : list A) : qsum (map (fun _ => c) l) = inj (length l) * c.
Proof. induction l; cbn [map qsum length]; [rewrite inj_0; ring|]. rewrite IHl, inj_S. ring. Qed.

(** Literals. *)
Definition qc (a : Z) (b : positive) : Qc := Q2Qc (a # b).
