(** Proofs about boundary bookkeeping. *)
From Coq Require Import List Arith ZArith Bool Lia Relations Permutation.
From Verif Require Import Base M_Numpy M_Boundaries S_Boundaries.
Import ListNotations.
Local Open Scope nat_scope.

Lemma in_where p t i : In i (where_is p t) <-> i < length t /\ p (nth i t 0%Z) = true.
Proof. unfold where_is. rewrite filter_In, in_seq. intuition lia. Qed.
Lemma NoDup_where p t : NoDup (where_is p t).
Proof. apply NoDup_filter, seq_NoDup. Qed.

Lemma fold_min_le l : forall m, (fold_left Z.min l m <= m)%Z /\ forall x, In x l -> (fold_left Z.min l m <= x)%Z.
Proof.
  induction l as [|y l IH]; intros m; cbn.
  - split; [lia|]. tauto.
  - destruct (IH (Z.min m y)) as [A B]. split; [lia|]. intros x [->|Hx]; [lia|auto].
Qed.
Lemma fold_min_in l : forall m, fold_left Z.min l m = m \/ In (fold_left Z.min l m) l.
Proof.
  induction l as [|y l IH]; intros m; cbn; [now left|].
  destruct (IH (Z.min m y)) as [E|E]; [|now right; right].
  destruct (Z.min_spec m y) as [[_ F]|[_ F]]; rewrite F in *; rewrite E; [now left|right; now left].
Qed.
Lemma table_min_le t i : i < length t -> (table_min t <= nth i t 0)%Z.
Proof. intros H. apply (fold_min_le t). now apply nth_In. Qed.

Lemma nth_boundaries t j i :
  In i (nth j (boundaries t) []) <-> i < length t /\ nth i t 0%Z = (- Z.of_nat (S j))%Z.
Proof.
  unfold boundaries. destruct (Nat.lt_ge_cases j (Z.to_nat (- table_min t))) as [H|H].
  - rewrite (nth_indep _ [] (where_is (Z.eqb (- Z.of_nat (S 0))) t)) by now rewrite map_length, seq_length.
    rewrite (map_nth (fun k => where_is (Z.eqb (- Z.of_nat (S k))) t)), seq_nth, in_where by easy.
    rewrite Z.eqb_eq. cbn [Nat.add]. intuition.
  - rewrite nth_overflow by (now rewrite map_length, seq_length). split; [easy|].
    intros [A B]. pose proof (table_min_le t i A). lia.
Qed.

Lemma boundaries_length t : (exists i, i < length t) -> (table_min t < 0)%Z ->
  exists i, i < length t /\ nth i t 0%Z = (- Z.of_nat (length (boundaries t)))%Z.
Proof.
  intros _ H. unfold boundaries. rewrite map_length, seq_length.
  unfold table_min in *. destruct t as [|x t]; [cbn in H; lia|].
  destruct (fold_min_in (x :: t) x) as [E|E].
  - exists 0. cbn [length nth]. cbn [hd] in *. rewrite E in *. split; lia.
  - destruct (In_nth _ _ 0%Z E) as (i & A & B). exists i. split; [exact A|].
    cbn [hd] in *. rewrite B. lia.
Qed.

Lemma NoDup_concat_disjoint {A} (l : list (list A)) :
  (forall j, NoDup (nth j l [])) ->
  (forall j k x, In x (nth j l []) -> In x (nth k l []) -> j = k) -> NoDup (concat l).
Proof.
  induction l as [|a l IH]; intros N D; cbn; [constructor|].
  apply NoDup_app_iff. refine (conj (N 0) (conj _ _)).
  - apply IH; [intros j; apply (N (S j))|]. intros j k x Hj Hk.
    specialize (D (S j) (S k) x Hj Hk). lia.
  - intros x Hx Hc. apply in_concat in Hc as (b & Hb & Hxb).
    destruct (In_nth _ _ [] Hb) as (j & _ & <-).
    specialize (D 0 (S j) x Hx Hxb). lia.
Qed.

Lemma boundaries_once t :
  NoDup (concat (boundaries t)) /\ forall i, In i (concat (boundaries t)) <-> boundary_face t i.
Proof.
  split.
  - apply NoDup_concat_disjoint.
    + intros j. destruct (Nat.lt_ge_cases j (length (boundaries t))) as [H|H].
      * assert (In (nth j (boundaries t) []) (boundaries t)) as Hin by now apply nth_In.
        unfold boundaries in Hin at 2. apply in_map_iff in Hin as (k & <- & _). apply NoDup_where.
      * rewrite nth_overflow by easy. constructor.
    + intros j k x Hj Hk. apply nth_boundaries in Hj as [_ Hj]. apply nth_boundaries in Hk as [_ Hk]. lia.
  - intros i. rewrite in_concat. split.
    + intros (b & Hb & Hi). destruct (In_nth _ _ [] Hb) as (j & _ & <-).
      apply nth_boundaries in Hi as [A B]. split; [exact A|lia].
    + intros [A B]. set (j := Z.to_nat (- nth i t 0%Z) - 1).
      assert (In i (nth j (boundaries t) [])) as H.
      { apply nth_boundaries. split; [exact A|]. subst j. lia. }
      exists (nth j (boundaries t) []). split; [|exact H].
      apply nth_In. destruct (Nat.lt_ge_cases j (length (boundaries t))) as [L|L]; [exact L|].
      rewrite nth_overflow in H by easy. easy.
Qed.

(** * Edits *)
Lemma put_all_spec l : forall t v, Forall (fun i => i < length t) l ->
  length (put_all t l v) = length t /\
  forall i, nth i (put_all t l v) 0%Z = if existsb (Nat.eqb i) l then v else nth i t 0%Z.
Proof.
  unfold put_all. induction l as [|x l IH]; intros t v H; cbn; [easy|].
  inversion_clear H.
  destruct (IH (set_nth t x v) v) as [A B]. { now rewrite set_nth_length. }
  rewrite set_nth_length in A. split; [exact A|]. intros i. rewrite B, set_nth_nth by easy.
  destruct (Nat.eqb_spec i x); cbn; [|easy]. now destruct (existsb _ l).
Qed.
Lemma put_all_relabelled t l v p : Forall (fun i => i < length t) l ->
  (forall i, i < length t -> (In i l <-> p i)) -> relabelled t p v (put_all t l v).
Proof.
  intros H E. destruct (put_all_spec l t v H) as [A B]. split; [exact A|].
  intros i Hi. rewrite B. specialize (E i Hi).
  destruct (existsb (Nat.eqb i) l) eqn:X.
  - apply existsb_exists in X as (y & Hy & F). apply Nat.eqb_eq in F as <-. tauto.
  - split; [|easy]. intros Hp. apply E in Hp. assert (existsb (Nat.eqb i) l = true) by
      (apply existsb_exists; exists i; now rewrite Nat.eqb_refl). congruence.
Qed.
Lemma relabelled_edit t p b t' : relabelled t p b t' ->
  (forall i, i < length t -> p i -> (nth i t 0 < 0)%Z /\ (b < 0)%Z) ->
  (forall i, i < length t -> p i \/ ~ p i) ->
  boundary_edit t t'.
Proof.
  intros [A B] H D. split; [exact A|]. intros i Hi. destruct (B i Hi) as [B1 B2].
  destruct (D i Hi) as [X|X].
  - destruct (H i Hi X). rewrite B1 by easy. lia.
  - rewrite B2 by easy. lia.
Qed.

Lemma in_mask_spec m v : in_mask m v = true <-> exists x, In x m /\ (v = - Z.abs x)%Z.
Proof.
  unfold in_mask. rewrite existsb_exists. split; intros (x & A & B); exists x; split; auto.
  - apply Z.eqb_eq in B. lia.
  - apply Z.eqb_eq. lia.
Qed.

Lemma py_index_names' n z i : py_index n z = Some i <-> names n z i.
Proof.
  unfold py_index, names. destruct (Z.ltb_spec z 0);
  match goal with |- context [(?a && ?b)%bool] => destruct a eqn:A, b eqn:B end; cbn;
  try apply Z.leb_le in A; try apply Z.leb_gt in A; try apply Z.ltb_lt in B; try apply Z.ltb_ge in B;
  (split; [intros E; try discriminate; injection E as <-; lia|intros [U [V|V]]; try lia; f_equal; lia]).
Qed.

Lemma all_some_In {A B} (f : A -> option B) l r : all_some (map f l) = Some r ->
  forall y, In y r <-> exists x, In x l /\ f x = Some y.
Proof.
  revert r; induction l as [|x l IH]; cbn; intros r E y.
  - injection E as <-. split; [easy|]. now intros (? & ? & ?).
  - destruct (f x) as [z|] eqn:F; [|easy]. destruct (all_some (map f l)) as [r'|]; [|easy].
    injection E as <-. cbn. rewrite (IH r' eq_refl). split.
    + intros [<-|(x' & A1 & A2)]; eauto.
    + intros (x' & [<-|A1] & A2); [left; congruence|eauto].
Qed.
Lemma all_some_none {A B} (f : A -> option B) l :
  all_some (map f l) = None <-> exists x, In x l /\ f x = None.
Proof.
  induction l as [|x l IH]; cbn.
  - split; [easy|]. now intros (? & ? & ?).
  - destruct (f x) as [z|] eqn:F.
    + destruct (all_some (map f l)) as [r'|]; split.
      * easy.
      * intros (x' & [<-|A1] & A2); [congruence|]. destruct IH as [_ IH]. discriminate IH; eauto.
      * intros _. destruct IH as [IH _]. destruct (IH eq_refl) as (x' & ? & ?). eauto.
      * easy.
    + split; eauto.
Qed.

Lemma face_positions_some patches faces ids pos :
  face_positions patches faces ids = Some pos -> forall i, In i pos <-> named_face patches faces ids i.
Proof.
  intros E i. unfold face_positions in E. rewrite (all_some_In _ _ _ E i). split.
  - intros ([z w] & A & B). cbn [fst snd] in B.
    destruct (py_index patches z) as [p|] eqn:P; [|easy].
    destruct (py_index faces w) as [f|] eqn:F; [|easy]. injection B as <-.
    apply py_index_names' in P. apply py_index_names' in F. exists z, w, p, f. auto.
  - intros (z & w & p & f & A & P & F & ->). exists (z, w). cbn [fst snd].
    apply py_index_names' in P. apply py_index_names' in F. rewrite P, F. auto.
Qed.
Lemma named_face_bound patches faces ids i : named_face patches faces ids i -> i < patches * faces.
Proof. intros (z & w & p & f & _ & [P _] & [F _] & ->). nia. Qed.

Lemma table_min_neg t i : i < length t -> (nth i t 0 < 0)%Z -> (table_min t < 0)%Z.
Proof. intros A B. pose proof (table_min_le t i A). lia. Qed.

Lemma set_boundary_ok faces t ids id t' : set_boundary faces t ids id = Some t' ->
  (forall z w, In (z, w) ids -> exists p f, names (length t / faces) z p /\ names faces w f) /\
  (forall i, named_face (length t / faces) faces ids i -> boundary_face t i) /\
  relabelled t (named_face (length t / faces) faces ids) (new_bid t id) t'.
Proof.
  unfold set_boundary. destruct (face_positions _ _ _) as [pos|] eqn:E; [|easy].
  pose proof (face_positions_some _ _ _ _ E) as M.
  destruct (existsb _ pos) eqn:X; [easy|]. intros [= <-].
  assert (forall i, In i pos -> i < length t) as L.
  { intros i Hi. apply M, named_face_bound in Hi.
    pose proof (Nat.mul_div_le (length t) faces). destruct faces; [lia|].
    specialize (H ltac:(lia)). lia. }
  refine (conj _ (conj _ _)).
  - intros z w Hin. unfold face_positions in E.
    destruct (py_index (length t / faces) z) as [p|] eqn:P.
    + destruct (py_index faces w) as [f|] eqn:F.
      * exists p, f. split; now apply py_index_names'.
      * exfalso. match type of E with ?a = _ => enough (a = None) by congruence end.
        apply all_some_none. exists (z, w). cbn [fst snd]. now rewrite P, F.
    + exfalso. match type of E with ?a = _ => enough (a = None) by congruence end.
      apply all_some_none. exists (z, w). cbn [fst snd]. now rewrite P.
  - intros i Hi. apply M in Hi. split; [auto|].
    destruct (Z.ltb_spec (-1) (nth i t 0%Z)) as [B|B]; [|lia].
    assert (existsb (fun i => -1 <? nth i t 0)%Z pos = true); [|congruence].
    apply existsb_exists. exists i. split; [easy|]. now apply Z.ltb_lt.
  - apply put_all_relabelled; [now apply Forall_forall|]. intros i _. apply M.
Qed.
Lemma set_boundary_fails faces t ids id : set_boundary faces t ids id = None <->
  (exists z w, In (z, w) ids /\ ((forall p, ~ names (length t / faces) z p) \/ (forall f, ~ names faces w f))) \/
  (exists i, named_face (length t / faces) faces ids i /\ (0 <= nth i t 0)%Z).
Proof.
  unfold set_boundary. destruct (face_positions _ _ _) as [pos|] eqn:E.
  - pose proof (face_positions_some _ _ _ _ E) as M. destruct (existsb _ pos) eqn:X.
    + split; [intros _|easy]. right. apply existsb_exists in X as (i & A & B). exists i.
      apply M in A. split; [easy|]. apply Z.ltb_lt in B. lia.
    + split; [easy|]. intros [(z & w & Hin & H)|(i & A & B)].
      * exfalso. unfold face_positions in E.
        match type of E with ?a = _ => enough (a = None) by congruence end.
        apply all_some_none. exists (z, w). split; [easy|]. cbn [fst snd].
        destruct (py_index (length t / faces) z) as [p|] eqn:P; [|easy].
        destruct (py_index faces w) as [f|] eqn:F; [|easy].
        apply py_index_names' in P. apply py_index_names' in F. destruct H as [H|H]; exfalso; eapply H; eauto.
      * exfalso. assert (existsb (fun i => -1 <? nth i t 0)%Z pos = true); [|congruence].
        apply existsb_exists. exists i. split; [now apply M|]. apply Z.ltb_lt. lia.
  - split; [intros _|easy]. left. unfold face_positions in E. apply all_some_none in E as ([z w] & A & B).
    cbn [fst snd] in B. exists z, w. split; [easy|].
    destruct (py_index (length t / faces) z) as [p|] eqn:P.
    + right. intros f Hf. apply py_index_names' in Hf. now rewrite Hf in B.
    + left. intros p Hp. apply py_index_names' in Hp. congruence.
Qed.

Lemma new_bid_neg t id : id_ok id -> (table_min t < 0)%Z -> (new_bid t id < 0)%Z.
Proof. unfold id_ok, new_bid. destruct id as [b|]; [|lia]. intros H _. assert (b <> 0)%Z by congruence. lia. Qed.

Lemma edit_refl t : boundary_edit t t.
Proof. split; [easy|]. intros; split; auto. Qed.
Lemma edit_trans a b c : boundary_edit a b -> boundary_edit b c -> boundary_edit a c.
Proof.
  intros [A1 A2] [B1 B2]. split; [congruence|]. intros i Hi.
  destruct (A2 i Hi) as [A3 A4]. destruct (B2 i ltac:(congruence)) as [B3 B4]. split.
  - intros H. rewrite B3; rewrite A3; auto.
  - auto.
Qed.

Lemma from_function_ok t on mask id :
  relabelled t (selected t on mask) (new_bid t id) (boundary_from_function t on mask id).
Proof.
  unfold boundary_from_function. apply put_all_relabelled.
  - apply Forall_forall. intros i Hi. apply filter_In in Hi as [Hi _].
    destruct mask; now apply in_where in Hi.
  - intros i Hi. rewrite filter_In. unfold selected. destruct mask as [m|]; rewrite in_where.
    + rewrite in_mask_spec. tauto.
    + rewrite Z.ltb_lt. tauto.
Qed.
Lemma selected_dec t on mask i : selected t on mask i \/ ~ selected t on mask i.
Proof.
  unfold selected. destruct (on i); [|right; now intros [? _]]. destruct mask as [m|].
  - destruct (in_mask m (nth i t 0%Z)) eqn:E.
    + left. split; [easy|]. now apply in_mask_spec.
    + right. intros [_ H]. apply in_mask_spec in H. congruence.
  - destruct (Z.ltb_spec (nth i t 0%Z) 0); [left|right]; [easy|]. intros [_ ?]. lia.
Qed.
Lemma named_face_dec patches faces ids i : named_face patches faces ids i \/ ~ named_face patches faces ids i.
Proof.
  set (b := existsb (fun pf => match py_index patches (fst pf), py_index faces (snd pf) with
      Some p, Some f => i =? p * faces + f | _, _ => false end) ids).
  destruct b eqn:E.
  - left. apply existsb_exists in E as ([z w] & A & B). cbn [fst snd] in B.
    destruct (py_index patches z) as [p|] eqn:P; [|easy].
    destruct (py_index faces w) as [f|] eqn:F; [|easy]. apply Nat.eqb_eq in B.
    apply py_index_names' in P. apply py_index_names' in F. exists z, w, p, f. auto.
  - right. intros (z & w & p & f & A & P & F & ->).
    apply py_index_names' in P. apply py_index_names' in F.
    assert (b = true); [|congruence]. apply existsb_exists. exists (z, w). cbn [fst snd].
    rewrite P, F, Nat.eqb_refl. auto.
Qed.

Lemma combine_ok t mask : mask <> [] -> exists t' m,
  combine_boundaries t mask = Some t' /\ least mask m /\ relabelled t (masked t mask) m t'.
Proof.
  intros N. destruct mask as [|m r]; [easy|].
  set (b := fold_left Z.min r m).
  assert (least (m :: r) b) as L.
  { split.
    - destruct (fold_min_in r m) as [E|E]; [left|right]; auto.
    - destruct (fold_min_le r m) as [A B]. intros x [<-|Hx]; [exact A|now apply B]. }
  assert (relabelled t (masked t (m :: r)) b (put_all t (where_is (in_mask (m :: r)) t) b)) as R.
  { apply put_all_relabelled.
    - apply Forall_forall. intros i Hi. now apply in_where in Hi.
    - intros i Hi. rewrite in_where, in_mask_spec. unfold masked. tauto. }
  exists (put_all t (where_is (in_mask (m :: r)) t) b), b. refine (conj _ (conj L R)).
  unfold combine_boundaries. now destruct (where_is (in_mask (m :: r)) t).
Qed.
Lemma masked_dec t mask i : masked t mask i \/ ~ masked t mask i.
Proof.
  destruct (in_mask mask (nth i t 0%Z)) eqn:E; [left|right].
  - now apply in_mask_spec.
  - intros H. apply in_mask_spec in H. congruence.
Qed.

Lemma bstep_edit faces t o : safe_call o -> boundary_edit t (bstep faces t o).
Proof.
  destruct o as [ids id|on mask id|mask]; cbn [bstep safe_call].
  - intros H. destruct (set_boundary faces t ids id) as [t'|] eqn:E; [|apply edit_refl].
    apply set_boundary_ok in E as (_ & B & R). apply (relabelled_edit _ _ _ _ R).
    + intros i Hi Hp. destruct (B i Hp) as [_ X]. split; [easy|].
      apply new_bid_neg; [easy|]. eapply table_min_neg; eauto.
    + intros i _. apply named_face_dec.
  - intros [H M]. apply (relabelled_edit _ _ _ _ (from_function_ok t on mask id)).
    + intros i Hi [_ Hp]. assert (nth i t 0 < 0)%Z as X.
      { destruct mask as [m|]; [|easy]. destruct Hp as (x & A & B).
        assert (x <> 0)%Z by (intros ->; auto). lia. }
      split; [easy|]. apply new_bid_neg; [easy|]. eapply table_min_neg; eauto.
    + intros i _. apply selected_dec.
  - intros H. destruct mask as [|m r].
    { unfold combine_boundaries. destruct (where_is _ t); apply edit_refl. }
    destruct (combine_ok t (m :: r)) as (t' & b & E & [L _] & R); [easy|]. rewrite E.
    rewrite Forall_forall in H. apply (relabelled_edit _ _ _ _ R).
    + intros i Hi (x & A & B). pose proof (H x A). pose proof (H b L). lia.
    + intros i _. apply masked_dec.
Qed.
Lemma bsteps_edit faces ops : forall t, Forall safe_call ops -> boundary_edit t (bsteps faces t ops).
Proof.
  unfold bsteps. induction ops as [|o ops IH]; intros t H; cbn; [apply edit_refl|].
  inversion_clear H. eapply edit_trans; [|now apply IH]. now apply bstep_edit.
Qed.

(** A new id is not in use. *)
Lemma new_bid_fresh t i : i < length t -> nth i t 0%Z <> new_bid t None.
Proof. intros H. pose proof (table_min_le t i H). cbn. lia. Qed.
