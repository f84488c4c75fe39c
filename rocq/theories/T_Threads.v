(** Property theorems C01-C04: multi-threaded queries. *)
From Coq Require Import List ZArith Lia Permutation.
From Verif Require Import Base M_Threads S_Threads P_Threads.
Import ListNotations.
Local Open Scope Z_scope.

(** C01, part 1: every query index is processed, and none is processed twice,
    for every number of queries, thread request and core count. *)
Theorem C01_no_query_lost_or_repeated :
  forall hc total n ts, 0 <= total ->
  launched (nthread_execution hc total n) = Some ts ->
  NoDup (flat_map chunk_indices ts) /\
  (forall i, 0 <= i < total -> In i (flat_map chunk_indices ts)).
Proof. exact (fun hc total n ts Ht H =>
  conj (chunk_nodup hc total n ts Ht H) (chunk_all_in hc total n ts Ht H)). Qed.
Print Assumptions C01_no_query_lost_or_repeated.

(** C01, part 2: the workers process exactly the indices 0..total-1 iff the
    rounded-up chunks of all workers but the last fit into the total. *)
Theorem C01_exact_iff :
  forall hc total n ts, 0 <= total ->
  launched (nthread_execution hc total n) = Some ts ->
  (processed_exactly_once total (flat_map chunk_indices ts) <->
   chunks_fit total (effective_threads hc n)).
Proof. exact chunk_exact_iff. Qed.
Print Assumptions C01_exact_iff.

(** C01, part 3: usable sufficient conditions. *)
Theorem C01_exact_when :
  forall hc total n ts, 0 < total ->
  launched (nthread_execution hc total n) = Some ts ->
  let k := effective_threads hc n in
  k <= 2 \/ total <= k \/ (k - 1) * (k - 1) <= total \/ total mod k = 0 ->
  processed_exactly_once total (flat_map chunk_indices ts).
Proof. exact (fun hc total n ts Ht H Hc =>
  proj2 (chunk_exact_iff hc total n ts (Z.lt_le_incl _ _ Ht) H)
        (chunks_fit_sufficient _ _ Ht Hc)). Qed.
Print Assumptions C01_exact_when.

(** C01, part 4: the launch itself crashes (integer division by zero) iff there
    is no query and at least two threads are requested. *)
Theorem C01_crash_iff :
  forall hc total n, 0 <= total ->
  (launched (nthread_execution hc total n) = None <->
   total = 0 /\ 2 <= effective_threads hc n).
Proof. exact launch_crash_iff. Qed.
Print Assumptions C01_crash_iff.

(** C01 as stated does not hold: 5 queries on 4 threads process index 5. *)
Theorem C01_exactness_refuted :
  exists hc total n ts, 0 < total /\
  launched (nthread_execution hc total n) = Some ts /\
  exists i, In i (flat_map chunk_indices ts) /\ ~ (0 <= i < total).
Proof. exact chunk_refuted. Qed.
Print Assumptions C01_exactness_refuted.

Example C01_example_exact :
  launched (nthread_execution 8 10 4) =
    Some [Task 0 3 0; Task 3 6 1; Task 6 9 2; Task 9 10 3] /\
  chunks_fit 10 (effective_threads 8 4) /\ chunks_fit 10 (effective_threads 8 (-1)) = chunks_fit 10 8.
Proof. repeat split. right. vm_compute. discriminate. Qed.

Example C01_example_crash : launched (nthread_execution 8 0 4) = None.
Proof. reflexivity. Qed.

(** C02: for every item count and every positive thread request the strided
    workers terminate and together process every item exactly once. *)
Theorem C02_strided_exact :
  forall hc total n ts, 0 < total -> 1 <= n ->
  launched (nthread_execution hc total n) = Some ts ->
  Forall2 (fun t l => strided_run n total (t_id t) l) ts
          (map (strided_indices n total) ts) /\
  (forall ls, Forall2 (fun t l => strided_run n total (t_id t) l) ts ls ->
              processed_exactly_once total (concat ls)).
Proof.
  exact (fun hc total n ts Ht Hn H =>
    conj (list_ind (fun ts => Forall2 (fun t l => strided_run n total (t_id t) l) ts
                                (map (strided_indices n total) ts))
            (Forall2_nil _)
            (fun t ts IH => Forall2_cons t (strided_indices n total t)
                              (strided_indices_run n total t Hn) IH) ts)
         (fun ls HF => strided_exact hc total n ts ls Ht Hn H HF)).
Qed.
Print Assumptions C02_strided_exact.

(** C02: with a thread request <= 0 the first worker never terminates (as soon
    as there is an item); "0 or negative = automatic" does not hold here. *)
Theorem C02_nonpositive_diverges :
  forall total n, 0 < total -> n <= 0 -> forall l, ~ strided_run n total 0 l.
Proof. exact (fun total n Ht Hn l => strided_diverges n total 0 l Hn Ht). Qed.
Print Assumptions C02_nonpositive_diverges.

Example C02_example :
  launched (nthread_execution 8 7 3) = Some [Task 0 3 0; Task 3 6 1; Task 6 7 2] /\
  map (strided_indices 3 7) [Task 0 3 0; Task 3 6 1; Task 6 7 2] = [[0;3;6]; [1;4]; [2;5]].
Proof. split; reflexivity. Qed.

(** C03, chunk queries (Spline): whatever the schedule, cell a of the result is
    what the evaluation of query a/dim wrote there last; no cell outside the
    result is touched. *)
Theorem C03_schedule_independent_chunks :
  forall V dim (kernel : Z -> list (write V)) hc total n ts s m a,
  kernel_local dim kernel -> 0 < dim -> 0 <= total ->
  launched (nthread_execution hc total n) = Some ts ->
  chunks_fit total (effective_threads hc n) ->
  interleaving (map (worker_trace dim kernel chunk_indices) ts) s ->
  run_writes s m a =
  if andb (0 <=? a) (a <? total * dim)
  then last_write (kernel (a / dim)) (a mod dim) (m a) else m a.
Proof. exact @chunk_result. Qed.
Print Assumptions C03_schedule_independent_chunks.

(** C03, strided queries (Multipatch). *)
Theorem C03_schedule_independent_strided :
  forall V dim (kernel : Z -> list (write V)) hc total n ts ls s m a,
  kernel_local dim kernel -> 0 < dim -> 0 < total -> 1 <= n ->
  launched (nthread_execution hc total n) = Some ts ->
  Forall2 (fun t l => strided_run n total (t_id t) l) ts ls ->
  interleaving (map (flat_map (block_writes dim kernel)) ls) s ->
  run_writes s m a =
  if andb (0 <=? a) (a <? total * dim)
  then last_write (kernel (a / dim)) (a mod dim) (m a) else m a.
Proof. exact @strided_result. Qed.
Print Assumptions C03_schedule_independent_strided.

(** C03: two different workers never write the same cell. *)
Theorem C03_race_free :
  forall V dim (kernel : Z -> list (write V)) (ls : list (list Z)) total
    (j k : nat) l1 l2 w1 w2,
  kernel_local dim kernel -> 0 < dim ->
  processed_exactly_once total (concat ls) ->
  j <> k -> nth_error ls j = Some l1 -> nth_error ls k = Some l2 ->
  In w1 (flat_map (block_writes dim kernel) l1) ->
  In w2 (flat_map (block_writes dim kernel) l2) ->
  fst w1 <> fst w2.
Proof. exact @interleaving_race_free. Qed.
Print Assumptions C03_race_free.

(** A kernel writing two cells per query (one of them twice), two workers, and
    a genuinely interleaved schedule. *)
Example C03_example :
  let kernel := fun i : Z => [(0, 0); (1, i); (0, i * i)] in
  kernel_local 2 kernel /\
  chunks_fit 2 (effective_threads 8 2) /\
  interleaving (map (worker_trace 2 kernel chunk_indices) [Task 0 1 0; Task 1 2 1])
    [(0, 0); (2, 0); (3, 1); (1, 0); (2, 1); (0, 0)] /\
  map (run_writes [(0, 0); (2, 0); (3, 1); (1, 0); (2, 1); (0, 0)] (fun _ => 77))
      [-1; 0; 1; 2; 3; 4] = [77; 0; 0; 1; 1; 77].
Proof.
  cbn zeta. split; [|split; [|split]].
  - intros i w H. cbn in H. destruct H as [<-|[<-|[<-|[]]]]; cbn; lia.
  - right. vm_compute. discriminate.
  - change (map _ _) with [[(0, 0); (1, 0); (0, 0)]; [(2, 0); (3, 1); (2, 1)]].
    apply (il_step [] _ _ [_]). apply (il_step [_] _ _ []).
    apply (il_step [_] _ _ []). apply (il_step [] _ _ [_]).
    apply (il_step [_] _ _ []). apply (il_step [] _ _ [_]).
    constructor. cbn. intuition.
  - reflexivity.
Qed.

(** C04: the result lists, without repetition, exactly the boundary faces of the
    first n_threads patches ... *)
Theorem C04_extract_first_patches :
  forall hc interfaces n fs, 1 <= n ->
  extract_all_boundary_splines hc (length interfaces) interfaces n = Some fs ->
  n <= Z.of_nat (length interfaces) /\ NoDup fs /\
  forall f, In f fs <-> Z.of_nat (fst f) < n /\ all_boundary_faces interfaces f.
Proof. exact extract_all_complete. Qed.
Print Assumptions C04_extract_first_patches.

(** ... so C04 as stated fails: two patches, one thread, the second patch's
    boundary is missing; and more threads than patches reads outside. *)
Theorem C04_complete_refuted :
  exists hc interfaces n fs f, 1 <= n /\
  extract_all_boundary_splines hc (length interfaces) interfaces n = Some fs /\
  all_boundary_faces interfaces f /\ ~ In f fs.
Proof. exact extract_all_refuted. Qed.
Print Assumptions C04_complete_refuted.

Theorem C04_out_of_range_refuted :
  exists hc interfaces n, 1 <= n /\
  extract_all_boundary_splines hc (length interfaces) interfaces n = None.
Proof. exact (ex_intro _ 8 (ex_intro _ [[-1; -1]] (ex_intro _ 2
  (conj (Z.le_succ_diag_r 1) eq_refl)))). Qed.
Print Assumptions C04_out_of_range_refuted.

Example C04_example :
  extract_all_boundary_splines 8 2 [[-1; 2]; [1; -1]] 2 = Some [(0, 0); (1, 1)]%nat.
Proof. reflexivity. Qed.
