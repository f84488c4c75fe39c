(** Sorting lists of canonical rationals.  Library file. *)
From Coq Require Import List Arith Lia QArith Qcanon Permutation Sorted.
From Verif Require Import Base BaseQc.
Import ListNotations.
Local Open Scope Qc_scope.

Fixpoint qinsert (x : Qc) (l : list Qc) : list Qc :=
  match l with
  | [] => [x]
  | y :: r => if qleb x y then x :: y :: r else y :: qinsert x r
  end.
Fixpoint qsort (l : list Qc) : list Qc :=
  match l with [] => [] | x :: r => qinsert x (qsort r) end.

Notation qsorted := (StronglySorted Qcle).

Lemma qinsert_perm x l : Permutation (qinsert x l) (x :: l).
Proof.
  induction l; cbn; auto. destruct (qleb x a); auto. rewrite IHl. constructor.
Qed.
Lemma qsort_perm l : Permutation (qsort l) l.
Proof. induction l; cbn; auto. now rewrite qinsert_perm, IHl. Qed.
Lemma qinsert_sorted x l : qsorted l -> qsorted (qinsert x l).
Proof.
  induction 1 as [|y l S IH F]; cbn.
  - repeat constructor.
  - destruct (qleb_spec x y) as [H|H].
    + constructor; [constructor; auto|]. constructor; auto.
      eapply Forall_impl; [|exact F]. cbn. intros z Hz. qlra.
    + constructor; auto.
      apply (Permutation_Forall (Permutation_sym (qinsert_perm x l))). constructor; auto. qlra.
Qed.
Lemma qsort_sorted l : qsorted (qsort l).
Proof. induction l; cbn; [constructor|]. now apply qinsert_sorted. Qed.

Lemma sorted_perm_eq l l' : qsorted l -> qsorted l' -> Permutation l l' -> l = l'.
Proof.
  intros S. revert l'; induction S as [|x l S IH F]; intros l' S' P.
  - now apply Permutation_nil in P.
  - destruct S' as [|y l' S' F'].
    + apply Permutation_sym, Permutation_nil in P. discriminate.
    + assert (x = y).
      { assert (In y (x :: l)) as [|Hy] by (eapply Permutation_in; [symmetry; exact P|now left]); auto.
        assert (In x (y :: l')) as [|Hx] by (eapply Permutation_in; [exact P|now left]); auto.
        rewrite Forall_forall in F, F'. apply Qcle_antisym; auto. }
      subst y. f_equal. apply IH; auto. eapply Permutation_cons_inv; eauto.
Qed.

Lemma sorted_nth l i j d : qsorted l -> (i <= j)%nat -> (j < length l)%nat -> nth i l d <= nth j l d.
Proof.
  intros S. revert i j; induction S as [|x l S IH F]; intros i j Hij Hj; cbn in Hj; [lia|].
  destruct i, j; cbn; try apply Qcle_refl; try lia.
  - rewrite Forall_forall in F. apply F. apply nth_In. lia.
  - apply IH; lia.
Qed.
Lemma nth_sorted l d :
  (forall i j, (i <= j)%nat -> (j < length l)%nat -> nth i l d <= nth j l d) -> qsorted l.
Proof.
  induction l as [|x l IH]; intros H; constructor.
  - apply IH. intros i j Hij Hj. apply (H (S i) (S j)); cbn; lia.
  - apply Forall_forall. intros y Hy. destruct (In_nth l y d Hy) as (k & Hk & <-).
    apply (H 0%nat (S k)); cbn; lia.
Qed.

Lemma sorted_app l m :
  qsorted (l ++ m) <-> qsorted l /\ qsorted m /\ (forall x y, In x l -> In y m -> x <= y).
Proof.
  induction l as [|a l IH]; cbn.
  - split; [intros; repeat split; auto; [constructor|easy]|tauto].
  - split.
    + intros H. inversion H; subst. apply IH in H2. destruct H2 as (A & B & C).
      rewrite Forall_app in H3. destruct H3 as [D E]. repeat split; auto.
      * now constructor.
      * intros x y [<-|Hx] Hy; auto. rewrite Forall_forall in E. auto.
    + intros (A & B & C). inversion A; subst. constructor.
      * apply IH. repeat split; auto.
      * rewrite Forall_app. split; auto. rewrite Forall_forall. intros; apply C; auto.
Qed.
