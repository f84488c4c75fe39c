(** Property theorems C33 and C34: boundary ids. *)
From Coq Require Import List Arith ZArith Bool Lia Relations Permutation.
From Verif Require Import Base M_Numpy M_Boundaries S_Boundaries P_Continuity P_Boundaries W_Boundaries.
Import ListNotations.
Local Open Scope nat_scope.

(** * C33 *)

(** boundaries lists every boundary face exactly once, under its id. *)
Theorem C33_lists : forall t,
  (forall j i, In i (nth j (boundaries t) []) <-> i < length t /\ nth i t 0%Z = (- Z.of_nat (S j))%Z) /\
  NoDup (concat (boundaries t)) /\ (forall i, In i (concat (boundaries t)) <-> boundary_face t i).
Proof. exact C33_lists_holds. Qed.
Print Assumptions C33_lists.

(** Faces 1, 2, 5 carry the ids 1, 3, 1; id 2 is not used. *)
Example C33_lists_example : boundaries [4; -1; -3; 7; 0; -1; 9; 3]%Z = [[1; 5]; []; [2]].
Proof. exact C33_lists_example_holds. Qed.

(** No sequence of calls that avoids the id 0 (and combines negative ids) touches
    an inner interface. *)
Theorem C33_edits_partial : forall faces t ops,
  Forall safe_call ops -> boundary_edit t (bsteps faces t ops).
Proof. exact C33_edits_partial_holds. Qed.
Print Assumptions C33_edits_partial.

(** set_boundary gives the named faces, and only these, the new id; it raises if
    a face does not exist or is an inner interface. *)
Theorem C33_set : forall faces t ids id,
  (forall t', set_boundary faces t ids id = Some t' ->
     (forall i, named_face (length t / faces) faces ids i -> boundary_face t i) /\
     relabelled t (named_face (length t / faces) faces ids) (new_bid t id) t') /\
  (set_boundary faces t ids id = None <->
     (exists z w, In (z, w) ids /\
        ((forall p, ~ names (length t / faces) z p) \/ (forall f, ~ names faces w f))) \/
     (exists i, named_face (length t / faces) faces ids i /\ (0 <= nth i t 0)%Z)).
Proof. exact C33_set_holds. Qed.
Print Assumptions C33_set.

(** boundary_from_function gives the selected faces the new id. *)
Theorem C33_function : forall t on mask id,
  relabelled t (selected t on mask) (new_bid t id) (boundary_from_function t on mask id).
Proof. exact C33_function_holds. Qed.
Print Assumptions C33_function.

(** combine_boundaries gives the faces of the mask the least entry of the mask. *)
Theorem C33_combine : forall t mask, mask <> [] -> exists t' m,
  combine_boundaries t mask = Some t' /\ least mask m /\ relabelled t (masked t mask) m t'.
Proof. exact C33_combine_holds. Qed.
Print Assumptions C33_combine.

(** An id chosen by the library is not in use. *)
Theorem C33_fresh : forall t i, i < length t -> nth i t 0%Z <> new_bid t None.
Proof. exact C33_fresh_holds. Qed.
Print Assumptions C33_fresh.

(** Two patches, joined at faces 1 and 4 (patch 1, face 0). *)

Example C33_edits_example :
  Forall safe_call [SetBoundary [(0, 0); (-1, 3)]%Z None; FromFunction Nat.even None (Some 5%Z); Combine [-5; -2]%Z] /\
  bsteps 4 two_patches [SetBoundary [(0, 0); (-1, 3)]%Z None; FromFunction Nat.even None (Some 5%Z); Combine [-5; -2]%Z]
  = [-5; 4; -5; -1; 1; -1; -5; -5]%Z.
Proof. exact C33_edits_example_holds. Qed.

Example C33_set_example :
  set_boundary 4 two_patches [(0, 0); (-1, 3)]%Z (Some 7%Z) = Some [-7; 4; -1; -1; 1; -1; -1; -7]%Z /\
  set_boundary 4 two_patches [(0, 1)]%Z (Some 7%Z) = None /\
  set_boundary 4 two_patches [(2, 1)]%Z (Some 7%Z) = None.
Proof. exact C33_set_example_holds. Qed.

Example C33_function_example :
  boundary_from_function two_patches (fun i => 4 <? i) (Some [1]%Z) None = [-1; 4; -1; -1; 1; -2; -2; -2]%Z.
Proof. exact C33_function_example_holds. Qed.

Example C33_combine_example :
  combine_boundaries [-1; 4; -2; -3; 1; -2; -1; -3]%Z [-1; -2]%Z = Some [-2; 4; -2; -3; 1; -2; -2; -3]%Z.
Proof. exact C33_combine_example_holds. Qed.

(** id 0 turns boundary faces into faces "connected" to face 0. *)
Theorem C33_zero_id_refuted : exists faces t ids t',
  boundary_face t 3 /\ set_boundary faces t ids (Some 0%Z) = Some t' /\ nth 3 t' 0%Z = 0%Z.
Proof. exact C33_zero_id_refuted_holds. Qed.
Print Assumptions C33_zero_id_refuted.

(** A mask with 0 overwrites the interface with face 0. *)
Theorem C33_zero_mask_refuted : exists t on t' id,
  t' = boundary_from_function t on (Some [0]%Z) id /\
  (0 <= nth 4 t 0)%Z /\ nth 4 t' 0%Z <> nth 4 t 0%Z.
Proof. exact C33_zero_mask_refuted_holds. Qed.
Print Assumptions C33_zero_mask_refuted.

(** Positive ids, accepted everywhere else, make combine_boundaries declare
    boundary faces as inner interfaces. *)
Theorem C33_combine_refuted : exists t mask t',
  boundary_face t 0 /\ combine_boundaries t mask = Some t' /\ (0 <= nth 0 t' 0)%Z.
Proof. exact C33_combine_refuted_holds. Qed.
Print Assumptions C33_combine_refuted.

(** * C34 *)

(** Mutual connections, the first patch without open end: equal ids iff chained
    by smooth connections, ids 1 .. m, written to the boundary faces in order.
    The returned number is one more than the number of ids. *)
Theorem C34_classes_partial : forall n faces conn smooth t,
  0 < faces -> mutual n faces conn -> (forall k l, smooth k l = smooth l k) ->
  first_linked n faces conn -> boundary_count t = n ->
  exists ids m t', from_continuity faces n conn smooth t = Some (t', S m) /\
    classes n faces conn smooth ids m /\ labelled t ids t'.
Proof. exact C34_classes_partial_holds. Qed.
Print Assumptions C34_classes_partial.

(** A number of boundary faces other than the number of boundary patches is
    reported as an exception (or reads behind the ids). *)
Theorem C34_lost : forall n faces conn smooth t,
  0 < faces -> mutual n faces conn -> (forall k l, smooth k l = smooth l k) ->
  first_linked n faces conn -> boundary_count t <> n ->
  from_continuity faces n conn smooth t = None.
Proof. exact C34_lost_holds. Qed.
Print Assumptions C34_lost.

(** Any distribution of the patches over threads and any order of the writes:
    provided that single bits can be written independently. *)
Theorem C34_threads_partial : forall n faces conn smooth ps ws,
  0 < faces -> mutual n faces conn -> (forall k l, smooth k l = smooth l k) ->
  first_linked n faces conn -> Permutation ps (seq 0 n) ->
  Permutation ws (bit_writes faces conn smooth ps) ->
  exists ids m, new_ids faces n conn (put_bits (repeat false (n * faces)) ws) = Some (ids, S m) /\
    classes n faces conn smooth ids m.
Proof. exact C34_threads_partial_holds. Qed.
Print Assumptions C34_threads_partial.

(** The closed boundary of a square: four lines; patches 2 and 3 meet smoothly. *)


Example C34_classes_example :
  0 < 2 /\ mutual 4 2 ring /\ (forall k l, soft k l = soft l k) /\ first_linked 4 2 ring /\
  boundary_count [-1; 4; -1; 0; -1; -1]%Z = 4 /\
  from_continuity 2 4 ring soft [-1; 4; -1; 0; -1; -1]%Z = Some ([-1; 4; -2; 0; -3; -3]%Z, 4).
Proof. exact C34_classes_example_holds. Qed.

(** The reported number is not the number of ids. *)
Theorem C34_count_refuted : exists n faces conn smooth t t' r ids m,
  0 < faces /\ mutual n faces conn /\ (forall k l, smooth k l = smooth l k) /\
  first_linked n faces conn /\ boundary_count t = n /\
  from_continuity faces n conn smooth t = Some (t', r) /\
  classes n faces conn smooth ids m /\ labelled t ids t' /\ r <> m.
Proof. exact C34_count_refuted_holds. Qed.
Print Assumptions C34_count_refuted.

(** An open end of the first boundary patch: accesses in front of the arrays. *)
Theorem C34_open_refuted : exists n faces conn smooth t,
  0 < faces /\ mutual n faces conn /\ (forall k l, smooth k l = smooth l k) /\ boundary_count t = n /\
  from_continuity faces n conn smooth t = None.
Proof. exact C34_open_refuted_holds. Qed.
Print Assumptions C34_open_refuted.

(** Two threads writing bits of the same word: a schedule that loses a write, so
    that two smoothly connected patches get different ids. *)
Theorem C34_race_refuted : exists schedule word ts ids m,
  run_bits schedule (repeat false 8)
    [BitThread (bit_writes 2 ring soft [0; 1]) None; BitThread (bit_writes 2 ring soft [2; 3]) None]
    = (word, ts) /\
  Forall (fun t => bt_todo t = [] /\ bt_loaded t = None) ts /\
  new_ids 2 4 ring word = Some (ids, m) /\
  chain 4 2 ring soft 2 3 /\ nth 2 ids 0 <> nth 3 ids 0.
Proof. exact C34_race_refuted_holds. Qed.
Print Assumptions C34_race_refuted.

(** The same threads one after the other. *)
Example C34_race_example : exists schedule word ts,
  run_bits schedule (repeat false 8)
    [BitThread (bit_writes 2 ring soft [0; 1]) None; BitThread (bit_writes 2 ring soft [2; 3]) None]
    = (word, ts) /\
  Forall (fun t => bt_todo t = [] /\ bt_loaded t = None) ts /\
  new_ids 2 4 ring word = Some ([1; 2; 3; 3], 4).
Proof. exact C34_race_example_holds. Qed.