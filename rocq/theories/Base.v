(** General list lemmas used by the proofs; nothing splinepy-specific. *)
From Coq Require Import List Lia ZArith Permutation Bool.
From Coq Require Export ZifyBool.
Import ListNotations.

(** [zrange b e] = [b; b+1; ...; e-1] (empty when e <= b). *)
Definition zrange (b e : Z) : list Z :=
  map (fun k => (b + Z.of_nat k)%Z) (seq 0 (Z.to_nat (e - b))).

Arguments zrange b e : simpl never.
Global Arguments Nat.modulo : simpl never.
Global Arguments Nat.div : simpl never.
Global Arguments Nat.ltb : simpl never.

Lemma seq_shift_add a s n : map (fun k => a + k) (seq s n) = seq (a + s) n.
Proof.
  revert s; induction n; intros; cbn; auto. f_equal. rewrite IHn. f_equal. lia.
Qed.

Lemma in_zrange b e x : In x (zrange b e) <-> (b <= x < e)%Z.
Proof.
  unfold zrange. rewrite in_map_iff. split.
  - intros (k & <- & H). apply in_seq in H. lia.
  - intros H. exists (Z.to_nat (x - b)). split; [lia|]. apply in_seq. lia.
Qed.

Lemma NoDup_zrange b e : NoDup (zrange b e).
Proof.
  unfold zrange. apply FinFun.Injective_map_NoDup; [|apply seq_NoDup].
  intros x y H. lia.
Qed.

Lemma length_zrange b e : length (zrange b e) = Z.to_nat (e - b).
Proof. unfold zrange. now rewrite map_length, seq_length. Qed.

Lemma zrange_nil b e : (e <= b)%Z -> zrange b e = [].
Proof. intros. unfold zrange. now replace (Z.to_nat (e - b)) with 0 by lia. Qed.

Lemma zrange_app b m e : (b <= m <= e)%Z -> zrange b e = zrange b m ++ zrange m e.
Proof.
  intros H. unfold zrange.
  replace (Z.to_nat (e - b)) with (Z.to_nat (m - b) + Z.to_nat (e - m)) by lia.
  rewrite seq_app, map_app. f_equal. cbn.
  rewrite <- (Nat.add_0_r (Z.to_nat (m - b))), <- seq_shift_add, map_map.
  apply map_ext. intros; lia.
Qed.

Lemma zrange_cons b e : (b < e)%Z -> zrange b e = b :: zrange (b + 1) e.
Proof.
  intros. rewrite (zrange_app b (b + 1) e) by lia.
  unfold zrange at 1. replace (Z.to_nat (b + 1 - b)) with 1 by lia. cbn.
  f_equal. lia.
Qed.

Lemma NoDup_app_iff {A} (l1 l2 : list A) :
  NoDup (l1 ++ l2) <-> NoDup l1 /\ NoDup l2 /\ (forall x, In x l1 -> ~ In x l2).
Proof.
  induction l1 as [|a l1 IH]; cbn.
  - split; [intros H; repeat split; auto; constructor|tauto].
  - rewrite !NoDup_cons_iff, IH, in_app_iff. split.
    + intros (H1 & H2 & H3 & H4). repeat split; auto.
      intros x [->|Hx]; auto.
    + intros ((H1 & H2) & H3 & H4). repeat split; auto.
      intros [H|H]; auto. apply (H4 a); auto.
Qed.

Lemma filter_none {A} (p : A -> bool) l :
  (forall x, In x l -> p x = false) -> filter p l = [].
Proof.
  induction l as [|a l IH]; cbn; intros H; auto.
  rewrite (H a) by auto. apply IH; auto.
Qed.

Lemma filter_all {A} (p : A -> bool) l :
  (forall x, In x l -> p x = true) -> filter p l = l.
Proof.
  induction l as [|a l IH]; cbn; intros H; auto.
  rewrite (H a) by auto. f_equal. apply IH; auto.
Qed.

Lemma fold_left_ext_in {A B} (f g : A -> B -> A) l a :
  (forall x y, In y l -> f x y = g x y) -> fold_left f l a = fold_left g l a.
Proof.
  revert a; induction l as [|b l IH]; cbn; intros a H; auto.
  rewrite H by auto. apply IH; auto.
Qed.

Lemma nth_error_ext {A} (l l' : list A) :
  (forall i, nth_error l i = nth_error l' i) -> l = l'.
Proof.
  revert l'; induction l as [|a l IH]; intros [|b l'] H; auto.
  - specialize (H 0); discriminate.
  - specialize (H 0); discriminate.
  - f_equal. + specialize (H 0); now inversion H.
    + apply IH. intros i. apply (H (S i)).
Qed.

Lemma Forall2_len {A B} (R : A -> B -> Prop) l l' : Forall2 R l l' -> length l = length l'.
Proof. induction 1; cbn; auto. Qed.

(** All results present. *)
Fixpoint all_some {A} (l : list (option A)) : option (list A) :=
  match l with
  | [] => Some []
  | None :: _ => None
  | Some x :: l => match all_some l with Some y => Some (x :: y) | None => None end
  end.

(** Replace an entry; positions past the end are ignored. *)
Definition set_nth {A} (l : list A) (k : nat) (x : A) : list A :=
  firstn k l ++ match skipn k l with [] => [] | _ :: r => x :: r end.

Lemma set_nth_length {A} (l : list A) k x : length (set_nth l k x) = length l.
Proof.
  unfold set_nth. rewrite app_length, firstn_length.
  pose proof (skipn_length k l) as E. destruct (skipn k l); cbn in *; lia.
Qed.
Lemma set_nth_nth {A} (l : list A) k x j d :
  k < length l -> nth j (set_nth l k x) d = if j =? k then x else nth j l d.
Proof.
  revert k j; induction l as [|y l IH]; intros [|k] [|j] H; cbn in H; try lia; auto.
  cbn [nth Nat.eqb]. change (set_nth (y :: l) (S k) x) with (y :: set_nth l k x). cbn [nth].
  apply IH. lia.
Qed.
