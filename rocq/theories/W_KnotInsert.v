(** Concrete witnesses for the knot insertion theorems. *)
From Coq Require Import List Arith ZArith QArith Qcanon Lia Permutation Sorted.
From Verif Require Import Base BaseQc BaseSort M_KnotInsert S_Spline S_KnotInsert P_Spline
  P_KnotInsert P_KnotGlobal.
Import ListNotations.
Local Open Scope Qc_scope.

(** Decision procedures used to discharge hypotheses on literals. *)
Fixpoint sortedb (l : list Qc) : bool :=
  match l with
  | x :: (y :: _) as r => qleb x y && sortedb r
  | _ => true
  end.
Lemma sortedb_nd l : sortedb l = true -> non_decreasing l.
Proof.
  intros H. apply nd_sorted. apply Sorted_StronglySorted.
  { intros a b c. apply Qcle_trans. }
  induction l as [|x [|y r] IH]; [constructor|repeat constructor|constructor].
  - apply IH. cbn in H. apply andb_prop in H. apply H.
  - constructor. cbn in H. apply andb_prop in H. destruct H as [H _]. now destruct (qleb_spec x y).
Qed.

Lemma knot_vector_dec p n kv :
  (Nat.eqb (length kv) (n + p + 1) && sortedb kv && qltb (kn kv p) (kn kv n))%bool = true ->
  knot_vector p n kv.
Proof.
  intros H. apply andb_prop in H. destruct H as [H H3]. apply andb_prop in H. destruct H as [H1 H2].
  split; [now apply Nat.eqb_eq|]. split; [now apply sortedb_nd|].
  now destruct (qltb_spec (kn kv p) (kn kv n)).
Qed.

Lemma separated_dec tol a b :
  forallb (fun x => forallb (fun y => qeqb x y || qleb tol (qabs (x - y)))%bool b) a = true ->
  separated tol a b.
Proof.
  intros H x y Hx Hy. rewrite forallb_forall in H. specialize (H x Hx).
  rewrite forallb_forall in H. specialize (H y Hy). apply Bool.orb_prop in H.
  destruct H as [H|H]; [left; now destruct (qeqb_spec x y)|right; now destruct (qleb_spec tol (qabs (x - y)))].
Qed.

Lemma inside_dec lo up ks :
  forallb (fun x => qltb lo x && qltb x up)%bool ks = true ->
  forall x, In x ks -> lo < x /\ x < up.
Proof.
  intros H x Hx. rewrite forallb_forall in H. specialize (H x Hx). apply andb_prop in H.
  destruct H as [H1 H2]. split; [now destruct (qltb_spec lo x)|now destruct (qltb_spec x up)].
Qed.

Ltac lit :=
  match goal with
  | |- knot_vector _ _ _ => apply knot_vector_dec
  | |- separated _ _ _ => apply separated_dec
  | |- forall x, In x _ -> _ => apply inside_dec
  | _ => idtac
  end; try (vm_compute; reflexivity).

Lemma unclamped_fails :
  exists tol p n old ks,
    0 < tol /\ (1 <= p)%nat /\ knot_vector p n old /\ separated tol old (old ++ ks) /\
    (forall x, In x ks -> kn old p < x /\ x < kn old n) /\
    global_insertion_matrix tol [(p, old)] 0 ks = None.
Proof.
  exists (qc 1 100), 1%nat, 2%nat, [0; 1; qc 2 1; qc 3 1], [qc 3 2].
  refine (conj _ (conj _ (conj _ (conj _ (conj _ _))))); lit; auto.
Qed.

Lemma degenerate_end_fails :
  exists tol p n old ks,
    0 < tol /\ (1 <= p)%nat /\ knot_vector p n old /\ kn old 0 = kn old p /\
    separated tol old (old ++ ks) /\
    (forall x, In x ks -> kn old p < x /\ x < kn old n) /\
    global_insertion_matrix tol [(p, old)] 0 ks = None.
Proof.
  exists (qc 1 100), 1%nat, 3%nat, [0; 0; 1; 1; 1], [qc 1 2].
  refine (conj _ (conj _ (conj _ (conj _ (conj _ (conj _ _)))))); lit; auto.
Qed.

Lemma near_bound_fails :
  exists tol p n old ks,
    0 < tol /\ (1 <= p)%nat /\ knot_vector p n old /\ kn old 0 = kn old p /\
    kn old (n - 1) < kn old n /\
    (forall x, In x ks -> kn old p < x /\ x < kn old n) /\
    global_insertion_matrix tol [(p, old)] 0 ks = None.
Proof.
  exists (qc 1 100), 1%nat, 2%nat, [0; 0; 1; 1], [qc 1 200].
  refine (conj _ (conj _ (conj _ (conj _ (conj _ (conj _ _)))))); lit; auto.
Qed.

Lemma degree_zero_fails :
  exists tol n old ks,
    0 < tol /\ knot_vector 0 n old /\ kn old (n - 1) < kn old n /\
    separated tol old (old ++ ks) /\
    (forall x, In x ks -> kn old 0 < x /\ x < kn old n) /\
    global_insertion_matrix tol [(0%nat, old)] 0 ks = None.
Proof.
  exists (qc 1 100), 3%nat, [0; 1; qc 2 1; qc 3 1], [qc 1 2].
  refine (conj _ (conj _ (conj _ (conj _ (conj _ _))))); lit; auto.
Qed.

Lemma c12_witness :
  let old := [0; 0; 0; qc 1 2; 1; 1; 1] in
  let axes := [(1%nat, [0; 0; 1; 1]); (2%nat, old)] in
  let ks := [qc 3 4; qc 1 2; qc 3 4] in
  let cps := map (fun i => [inj i; inj (i * i)]) (seq 0 8) in
  bs_wf (BSpline axes cps) /\ insertable (qc 1 100) 2 4 old ks /\
  bs_in_domain (BSpline axes cps) [qc 1 3; qc 1 2].
Proof.
  cbn zeta. split; [|split].
  - split; [|reflexivity]. constructor; [|constructor; [|constructor]]; apply knot_vector_dec; vm_compute; reflexivity.
  - constructor; lit; auto.
  - repeat constructor; vm_compute; discriminate.
Qed.

Lemma caller_array_changed :
  exists tol axes k ks g,
    global_insertion_matrix tol axes k ks = Some g /\
    arg_after g (ContiguousFloat64 ks) <> ks.
Proof.
  exists (qc 1 100), [(1%nat, [0; 0; 1; 1])], 0%nat, [qc 1 2; qc 1 3]. eexists.
  split; [vm_compute; reflexivity|]. vm_compute. intros H. injection H. discriminate.
Qed.

Lemma argument_permuted tol axes k a g :
  global_insertion_matrix tol axes k (arg_values a) = Some g ->
  Permutation (arg_after g a) (arg_values a) /\
  (match a with ContiguousFloat64 l => non_decreasing l | _ => True end ->
   arg_after g a = arg_values a).
Proof.
  intros H. apply global_buffer in H. destruct a; cbn [arg_after arg_values] in *; auto.
  rewrite H. split; [apply qsort_perm|]. intros N. apply sorted_perm_eq.
  - apply qsort_sorted.
  - now apply nd_sorted.
  - apply qsort_perm.
Qed.

Lemma c13_witness :
  exists g, global_insertion_matrix (qc 1 100) [(1%nat, [0; 0; 1; 1])] 0 [qc 1 2; qc 1 3] = Some g /\
    gm_buffer g = [qc 1 3; qc 1 2] /\ gm_reads g = [0; 0; 0; 1; 2; 2]%nat.
Proof. eexists. split; [vm_compute; reflexivity|]. split; vm_compute; reflexivity. Qed.

Lemma qsort_perm_eq l l' : Permutation l l' -> qsort l = qsort l'.
Proof.
  intros H. apply sorted_perm_eq; try apply qsort_sorted.
  rewrite (qsort_perm l), (qsort_perm l'). exact H.
Qed.

Lemma insertion_order_irrelevant tol axes k ks ks' :
  Permutation ks ks' -> global_insertion_matrix tol axes k ks = global_insertion_matrix tol axes k ks'.
Proof. intros H. unfold global_insertion_matrix. now rewrite (qsort_perm_eq ks ks' H). Qed.
