(** Witnesses and assembly of the theorems of T_Boundaries. *)
From Coq Require Import List Arith ZArith Bool Lia Relations Permutation.
From Verif Require Import Base M_Numpy M_Boundaries S_Boundaries P_Continuity P_Boundaries.
Import ListNotations.
Local Open Scope nat_scope.

Lemma C33_lists_holds : forall t,
  (forall j i, In i (nth j (boundaries t) []) <-> i < length t /\ nth i t 0%Z = (- Z.of_nat (S j))%Z) /\
  NoDup (concat (boundaries t)) /\ (forall i, In i (concat (boundaries t)) <-> boundary_face t i).
Proof. intros t. split; [intros j i; apply nth_boundaries|apply boundaries_once]. Qed.

Lemma C33_lists_example_holds : boundaries [4; -1; -3; 7; 0; -1; 9; 3]%Z = [[1; 5]; []; [2]].
Proof. reflexivity. Qed.

Lemma C33_edits_partial_holds : forall faces t ops,
  Forall safe_call ops -> boundary_edit t (bsteps faces t ops).
Proof. intros faces t ops. apply bsteps_edit. Qed.

Lemma C33_set_holds : forall faces t ids id,
  (forall t', set_boundary faces t ids id = Some t' ->
     (forall i, named_face (length t / faces) faces ids i -> boundary_face t i) /\
     relabelled t (named_face (length t / faces) faces ids) (new_bid t id) t') /\
  (set_boundary faces t ids id = None <->
     (exists z w, In (z, w) ids /\
        ((forall p, ~ names (length t / faces) z p) \/ (forall f, ~ names faces w f))) \/
     (exists i, named_face (length t / faces) faces ids i /\ (0 <= nth i t 0)%Z)).
Proof.
  intros faces t ids id. split; [|apply set_boundary_fails].
  intros t' H. now apply set_boundary_ok in H.
Qed.

Lemma C33_function_holds : forall t on mask id,
  relabelled t (selected t on mask) (new_bid t id) (boundary_from_function t on mask id).
Proof. intros. apply from_function_ok. Qed.

Lemma C33_combine_holds : forall t mask, mask <> [] -> exists t' m,
  combine_boundaries t mask = Some t' /\ least mask m /\ relabelled t (masked t mask) m t'.
Proof. intros. now apply combine_ok. Qed.

Lemma C33_fresh_holds : forall t i, i < length t -> nth i t 0%Z <> new_bid t None.
Proof. intros. now apply new_bid_fresh. Qed.

Definition two_patches : list Z := [-1; 4; -1; -1; 1; -1; -1; -1]%Z.

Lemma C33_edits_example_holds :
  Forall safe_call [SetBoundary [(0, 0); (-1, 3)]%Z None; FromFunction Nat.even None (Some 5%Z); Combine [-5; -2]%Z] /\
  bsteps 4 two_patches [SetBoundary [(0, 0); (-1, 3)]%Z None; FromFunction Nat.even None (Some 5%Z); Combine [-5; -2]%Z]
  = [-5; 4; -5; -1; 1; -1; -5; -5]%Z.
Proof.
  split; [|reflexivity].
  repeat constructor; cbn; unfold id_ok; try discriminate; try lia.
Qed.

Lemma C33_set_example_holds :
  set_boundary 4 two_patches [(0, 0); (-1, 3)]%Z (Some 7%Z) = Some [-7; 4; -1; -1; 1; -1; -1; -7]%Z /\
  set_boundary 4 two_patches [(0, 1)]%Z (Some 7%Z) = None /\
  set_boundary 4 two_patches [(2, 1)]%Z (Some 7%Z) = None.
Proof. now split. Qed.

Lemma C33_function_example_holds :
  boundary_from_function two_patches (fun i => 4 <? i) (Some [1]%Z) None = [-1; 4; -1; -1; 1; -2; -2; -2]%Z.
Proof. reflexivity. Qed.

Lemma C33_combine_example_holds :
  combine_boundaries [-1; 4; -2; -3; 1; -2; -1; -3]%Z [-1; -2]%Z = Some [-2; 4; -2; -3; 1; -2; -2; -3]%Z.
Proof. reflexivity. Qed.

Lemma C33_zero_id_refuted_holds : exists faces t ids t',
  boundary_face t 3 /\ set_boundary faces t ids (Some 0%Z) = Some t' /\ nth 3 t' 0%Z = 0%Z.
Proof. exists 4, two_patches, [(0, 3)]%Z. eexists. split; [split; cbn; lia|]. now split. Qed.

Lemma C33_zero_mask_refuted_holds : exists t on t' id,
  t' = boundary_from_function t on (Some [0]%Z) id /\
  (0 <= nth 4 t 0)%Z /\ nth 4 t' 0%Z <> nth 4 t 0%Z.
Proof.
  exists [4; -1; -1; -1; 0; -1; -1; -1]%Z, (fun _ => true). eexists. exists (Some 3%Z).
  split; [reflexivity|]. split; [cbn; lia|]. discriminate.
Qed.

Lemma C33_combine_refuted_holds : exists t mask t',
  boundary_face t 0 /\ combine_boundaries t mask = Some t' /\ (0 <= nth 0 t' 0)%Z.
Proof.
  exists [-1; 4; -2; -3; 1; -2; -1; -3]%Z, [1; 2]%Z. eexists. split; [split; cbn; lia|].
  split; [reflexivity|]. cbn. lia.
Qed.

Lemma C34_classes_partial_holds : forall n faces conn smooth t,
  0 < faces -> mutual n faces conn -> (forall k l, smooth k l = smooth l k) ->
  first_linked n faces conn -> boundary_count t = n ->
  exists ids m t', from_continuity faces n conn smooth t = Some (t', S m) /\
    classes n faces conn smooth ids m /\ labelled t ids t'.
Proof.
  intros n faces conn smooth t F M Sy FL C.
  destruct (precompute_run n faces conn smooth F M Sy FL) as (g & Eg & R).
  destruct (classes_run n faces conn smooth F M Sy g R) as (ids & m & Ei & K).
  destruct (write_ids_spec t ids) as (t' & Ew & Lb).
  { destruct K as [L _]. rewrite L, <- C. unfold boundary_count, rank. now rewrite firstn_all. }
  exists ids, m, t'. refine (conj _ (conj K Lb)). unfold from_continuity. rewrite Eg, Ei, Ew. reflexivity.
Qed.

Lemma C34_lost_holds : forall n faces conn smooth t,
  0 < faces -> mutual n faces conn -> (forall k l, smooth k l = smooth l k) ->
  first_linked n faces conn -> boundary_count t <> n ->
  from_continuity faces n conn smooth t = None.
Proof.
  intros n faces conn smooth t F M Sy FL C.
  destruct (precompute_run n faces conn smooth F M Sy FL) as (g & Eg & R).
  destruct (classes_run n faces conn smooth F M Sy g R) as (ids & m & Ei & K).
  unfold from_continuity. rewrite Eg, Ei, write_ids_fail; [easy|].
  destruct K as [L _]. rewrite L. unfold boundary_count, rank in C. now rewrite firstn_all in C.
Qed.

Lemma C34_threads_partial_holds : forall n faces conn smooth ps ws,
  0 < faces -> mutual n faces conn -> (forall k l, smooth k l = smooth l k) ->
  first_linked n faces conn -> Permutation ps (seq 0 n) ->
  Permutation ws (bit_writes faces conn smooth ps) ->
  exists ids m, new_ids faces n conn (put_bits (repeat false (n * faces)) ws) = Some (ids, S m) /\
    classes n faces conn smooth ids m.
Proof.
  intros n faces conn smooth ps ws F M Sy FL Pp Pw. apply classes_run; auto.
  eapply bits_any_order; eauto.
Qed.

Definition ring : list Z := [7; 2; 1; 4; 3; 6; 5; 0]%Z.

Definition soft (k l : nat) : bool := (k =? 5) && (l =? 6) || (k =? 6) && (l =? 5).

Lemma ring_mutual : mutual 4 2 ring.
Proof.
  intros k Hk. right. exists (Z.to_nat (nth k ring 0%Z)).
  do 8 (destruct k as [|k]; [refine (conj eq_refl (conj _ eq_refl)); cbn; lia|]). lia.
Qed.

Lemma soft_sym : forall k l, soft k l = soft l k.
Proof.
  intros k l. unfold soft. rewrite orb_comm. now rewrite (andb_comm (k =? 6)), (andb_comm (k =? 5)).
Qed.

Lemma ring_first : first_linked 4 2 ring.
Proof. intros k Hk _. left. do 2 (destruct k as [|k]; [cbn; lia|]). lia. Qed.

Lemma C34_classes_example_holds :
  0 < 2 /\ mutual 4 2 ring /\ (forall k l, soft k l = soft l k) /\ first_linked 4 2 ring /\
  boundary_count [-1; 4; -1; 0; -1; -1]%Z = 4 /\
  from_continuity 2 4 ring soft [-1; 4; -1; 0; -1; -1]%Z = Some ([-1; 4; -2; 0; -3; -3]%Z, 4).
Proof.
  refine (conj _ (conj ring_mutual (conj soft_sym (conj ring_first _)))); [lia|]. now split.
Qed.

Lemma C34_count_refuted_holds : exists n faces conn smooth t t' r ids m,
  0 < faces /\ mutual n faces conn /\ (forall k l, smooth k l = smooth l k) /\
  first_linked n faces conn /\ boundary_count t = n /\
  from_continuity faces n conn smooth t = Some (t', r) /\
  classes n faces conn smooth ids m /\ labelled t ids t' /\ r <> m.
Proof.
  destruct (C34_classes_partial_holds 4 2 ring soft [-1; -1; -1; -1]%Z) as (ids & m & t' & E & K & L).
  - lia.
  - apply ring_mutual.
  - apply soft_sym.
  - apply ring_first.
  - reflexivity.
  - exists 4, 2, ring, soft, [-1; -1; -1; -1]%Z, t', (S m), ids, m.
    refine (conj _ (conj ring_mutual (conj soft_sym (conj ring_first (conj eq_refl (conj E (conj K (conj L _)))))))); lia.
Qed.

Lemma C34_open_refuted_holds : exists n faces conn smooth t,
  0 < faces /\ mutual n faces conn /\ (forall k l, smooth k l = smooth l k) /\ boundary_count t = n /\
  from_continuity faces n conn smooth t = None.
Proof.
  exists 2, 2, [-1; 2; 1; -1]%Z, (fun _ _ => true), [-1; -1]%Z.
  refine (conj _ (conj _ (conj _ (conj eq_refl eq_refl)))); [lia| |easy].
  intros k Hk. destruct k as [|[|[|[|k]]]]; cbn in *; [left; lia| | |left; lia|lia]; right.
  - exists 2. repeat split; cbn; lia.
  - exists 1. repeat split; cbn; lia.
Qed.

Lemma C34_race_refuted_holds : exists schedule word ts ids m,
  run_bits schedule (repeat false 8)
    [BitThread (bit_writes 2 ring soft [0; 1]) None; BitThread (bit_writes 2 ring soft [2; 3]) None]
    = (word, ts) /\
  Forall (fun t => bt_todo t = [] /\ bt_loaded t = None) ts /\
  new_ids 2 4 ring word = Some (ids, m) /\
  chain 4 2 ring soft 2 3 /\ nth 2 ids 0 <> nth 3 ids 0.
Proof.
  exists ([0; 1; 1; 1; 1; 0] ++ repeat 0 10). do 4 eexists. split; [vm_compute; reflexivity|].
  split; [repeat constructor|]. split; [vm_compute; reflexivity|]. split.
  - apply rt_step. exists 5, 6. repeat split; cbn; lia.
  - discriminate.
Qed.

Lemma C34_race_example_holds : exists schedule word ts,
  run_bits schedule (repeat false 8)
    [BitThread (bit_writes 2 ring soft [0; 1]) None; BitThread (bit_writes 2 ring soft [2; 3]) None]
    = (word, ts) /\
  Forall (fun t => bt_todo t = [] /\ bt_loaded t = None) ts /\
  new_ids 2 4 ring word = Some ([1; 2; 3; 3], 4).
Proof.
  exists (repeat 0 12 ++ repeat 1 4). do 2 eexists. split; [vm_compute; reflexivity|].
  split; [repeat constructor|]. vm_compute; reflexivity.
Qed.

