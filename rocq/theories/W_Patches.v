(** Witnesses and assembly of the theorems of T_Patches. *)
From Coq Require Import String List Arith ZArith Bool Lia QArith Qcanon Sorted Permutation.
From Verif Require Import Base BaseQc M_Grid S_Grid M_Threads S_Threads P_Threads M_Boundaries S_Boundaries P_Boundaries M_Patches S_Patches P_Caches P_Patches.
Import ListNotations.
Local Open Scope nat_scope.

Lemma C35_request_holds : forall hc r ps n,
  consistent r -> ps <> [] -> (1 <= n)%Z ->
  reports (raise_mismatch hc r ps n) (length ps) (fun k i => differs r k (nth i ps no_patch)).
Proof. exact raise_mismatch_spec. Qed.

Lemma C35_pairs_holds : forall hc f ps qs n,
  length ps = length qs -> ps <> [] -> (1 <= n)%Z ->
  reports (raise_mismatch2 hc f ps qs n) (length ps)
          (fun k i => misfits f k (nth i ps no_patch) (nth i qs no_patch)).
Proof. exact raise_mismatch2_spec. Qed.

Lemma C35_patches_partial_holds : forall hc ps n,
  ps <> [] -> (1 <= n)%Z -> chunks_fit (Z.of_nat (length ps)) n ->
  0 < p_para_dim (nth 0 ps no_patch) -> 0 < p_dim (nth 0 ps no_patch) ->
  reports (set_patches hc ps n) (length ps) (odd_dims ps).
Proof. exact set_patches_spec. Qed.

Lemma C35_threads_partial_holds : forall hc hc' ps n n',
  ps <> [] -> (1 <= n)%Z -> (1 <= n')%Z ->
  chunks_fit (Z.of_nat (length ps)) n -> chunks_fit (Z.of_nat (length ps)) n' ->
  0 < p_para_dim (nth 0 ps no_patch) -> 0 < p_dim (nth 0 ps no_patch) ->
  (set_patches hc ps n = Matches <-> set_patches hc' ps n' = Matches) /\
  forall rep rep' k, set_patches hc ps n = Mismatches rep -> set_patches hc' ps n' = Mismatches rep' ->
    Permutation (rep k) (rep' k).
Proof.
  intros hc hc' ps n n' N N1 N2 F1 F2 A B.
  pose proof (set_patches_spec hc ps n N N1 F1 A B) as R1.
  pose proof (set_patches_spec hc' ps n' N N2 F2 A B) as R2. split.
  - rewrite (reports_bad _ _ _ R1), (reports_bad _ _ _ R2). reflexivity.
  - intros rep rep' k E1 E2. destruct R1 as [[X _]|(r1 & X & _ & C1)]; [congruence|].
    destruct R2 as [[Y _]|(r2 & Y & _ & C2)]; [congruence|].
    rewrite E1 in X. injection X as ->. rewrite E2 in Y. injection Y as ->.
    apply NoDup_Permutation; [apply C1|apply C2|]. intros i. rewrite (proj2 (C1 k) i), (proj2 (C2 k) i). reflexivity.
Qed.

Lemma C35_overrun_holds : forall hc ps n,
  ps <> [] -> (1 <= n)%Z -> ~ chunks_fit (Z.of_nat (length ps)) n -> set_patches hc ps n = Crash.
Proof.
  intros hc ps n N N1 F. unfold set_patches. rewrite chunk_ids_fail; auto. destruct ps; [easy|cbn; lia].
Qed.

Lemma C35_fields_partial_holds : forall hc ps f fields n,
  ps <> [] -> (1 <= n)%Z -> fields <> [] \/ n = 1%Z -> chunks_fit (Z.of_nat (length fields)) n ->
  Forall (uniform (p_para_dim (nth 0 ps no_patch)) (f_field_dim f)) fields ->
  (add_fields hc ps f fields n = Added /\
     forall i, i < length fields -> ~ misfit_field ps f (nth i fields [])) \/
  (exists ids, add_fields hc ps f fields n = Rejected ids /\ ids <> [] /\ NoDup ids /\
     forall i, In i ids <-> i < length fields /\ misfit_field ps f (nth i fields [])).
Proof. exact add_fields_spec. Qed.

Definition surface (d : nat) : patch := Patch "BSpline" 2 d [2; 2] [4; 4] false.

Lemma C35_threads_refuted_holds :
  ~ (forall hc ps n, ps <> [] -> (1 <= n)%Z ->
     (forall k i, i < length ps -> ~ odd_dims ps k i) -> set_patches hc ps n = Matches).
Proof.
  intros H. specialize (H 4%Z (repeat (surface 3) 5) 4%Z ltac:(easy) ltac:(lia)).
  assert (set_patches 4 (repeat (surface 3) 5) 4 = Crash) as E by (vm_compute; reflexivity).
  rewrite E in H. discriminate H. clear. intros k i Hi. cbn in Hi. unfold odd_dims. cbn zeta.
  replace (nth i (repeat (surface 3) 5) no_patch) with (surface 3).
  - change (nth 0 (repeat (surface 3) 5) no_patch) with (surface 3). intros [_ X]. destruct k; congruence.
  - do 5 (destruct i as [|i]; [reflexivity|]). lia.
Qed.

Lemma C35_empty_refuted_holds : forall hc, (1 <= hc)%Z -> set_patches hc [] 1 = Crash.
Proof. intros hc _. reflexivity. Qed.

Lemma C35_terminate_refuted_holds :
  let ps := [surface 3] in let f := Flags false true 1 false false in
  let fields := [[Some (surface 1); Some (Patch "BSpline" 1 1 [2] [4] false)]; [Some (surface 1)]] in
  add_fields 4 ps f fields 1 = CtorRaised /\ add_fields 4 ps f fields 2 = Terminated.
Proof. split; vm_compute; reflexivity. Qed.

Lemma C35_resolutions_refuted_holds :
  exists r, (forall n m, wants r n -> wants r m -> n = m) /\
    (forall k i, i < 2 -> ~ differs r k (nth i [surface 3; surface 3] no_patch)) /\
    forall hc n, raise_mismatch hc r [surface 3; surface 3] n = BadRequest.
Proof.
  exists (Request "" 0 0 [] [4; 4]). refine (conj _ (conj _ _)).
  - intros n m [[A1 A2]|[[A1 A2]|[A1 A2]]] [[B1 B2]|[[B1 B2]|[B1 B2]]]; cbn in *; congruence.
  - intros k i Hi. assert (nth i [surface 3; surface 3] no_patch = surface 3) as ->
      by (destruct i as [|[|i]]; [easy|easy|lia]).
    intros [_ X]. destruct k; cbn in X.
    + destruct X as [X _]. congruence.
    + destruct X as (m & [[A1 A2]|[[A1 A2]|[A1 A2]]] & X); cbn in *; congruence.
    + destruct X as [X _]. congruence.
    + destruct X as [X _]. congruence.
    + destruct X as [_ [_ X]]. congruence.
  - reflexivity.
Qed.

Lemma C35_example_holds :
  let ps := [surface 3; surface 2; surface 3; Patch "Bezier" 3 2 [1; 1; 1] [2; 2; 2] false] in
  match set_patches 8 ps 2 with
  | Mismatches rep => (rep KParaDim, rep KDim, rep KDegrees) = ([3], [1; 3], [])
  | _ => False
  end.
Proof. vm_compute. reflexivity. Qed.

Lemma C35_fit_example_holds : chunks_fit 4 2 /\ chunks_fit 5 3 /\ ~ chunks_fit 5 4.
Proof. unfold chunks_fit. cbn. lia. Qed.

Lemma C35_fields_example_holds :
  let ps := [surface 3; surface 3] in let f := Flags false true 1 true false in
  let thin := Patch "BSpline" 2 1 [1; 2] [4; 4] false in
  let fields := [[Some (surface 1); None]; [Some thin; Some (surface 1)]; [Some (surface 1)]] in
  Forall (uniform 2 1) fields /\
  add_fields 8 ps f fields 2 = Rejected [1; 2] /\
  add_fields 8 ps f (firstn 1 fields) 2 = Added.
Proof.
  cbn zeta. refine (conj _ (conj _ _)); [|vm_compute; reflexivity|vm_compute; reflexivity].
  repeat constructor; try easy; exists 2, 1; refine (conj _ (conj _ _)); try lia; intros q H;
    cbn in H; repeat (destruct H as [<-|H]); try easy.
Qed.

Lemma C36_offsets_holds : forall R (coords : list (list R)),
  length (offsets coords) = length coords /\
  forall i, i < length coords -> nth i (offsets coords) 0 = prefix_sum (map (@length R) coords) i.
Proof.
  intros R coords. unfold offsets. split; [now rewrite offsets_length, map_length|].
  intros i H. rewrite nth_offsets by now rewrite map_length. reflexivity.
Qed.

Lemma C36_control_points_holds : forall R hc (coords : list (list R)) n,
  coords <> [] -> (1 <= n)%Z -> chunks_fit (Z.of_nat (length coords)) n ->
  exists ids, chunk_ids hc (length coords) n = Some ids /\
  forall ws buf, Permutation ws (cp_writes coords ids) -> length buf = n_control_points coords ->
  let cps := put_rows buf ws in
  cps = concat coords /\
  forall i, i < length coords ->
    nth i (offsets coords) 0 + length (nth i coords []) <= length cps /\
    firstn (length (nth i coords [])) (skipn (nth i (offsets coords) 0) cps) = nth i coords [].
Proof.
  intros R hc coords n N N1 F.
  assert (0 < length coords) as L by (destruct coords; [easy|cbn; lia]).
  destruct (chunk_ids_run hc (length coords) n N1 (or_introl L) F) as (ids & E & Pm).
  exists ids. split; [easy|]. intros ws buf Pw Lb.
  rewrite (control_points_any_order coords ids ws buf Lb Pm Pw). split; [easy|].
  intros i Hi. unfold offsets. rewrite nth_offsets by now rewrite map_length. cbn [Nat.add].
  destruct (concat_slice coords i Hi) as [A B]. auto.
Qed.

Lemma C36_overrun_refuted_holds :
  exists hc n, (1 <= n)%Z /\ chunk_ids hc (length (repeat [tt] 5)) n = None.
Proof. exists 4%Z, 4%Z. split; [lia|]. vm_compute. reflexivity. Qed.

Lemma C36_example_holds :
  let coords := [[10; 11]; [20; 21; 22]; []; [40]] in
  offsets coords = [0; 2; 5; 5] /\
  put_rows (repeat 0 6) (rev (cp_writes coords [2; 3; 0; 1])) = [10; 11; 20; 21; 22; 40].
Proof. split; reflexivity. Qed.

Lemma C58_evaluate_holds : forall R hc (eval : nat -> nat -> R) np nq n,
  0 < np * nq -> (1 <= n)%Z ->
  exists ids, strided_ids hc (np * nq) n = Some ids /\
  forall ws buf, Permutation ws (eval_writes eval nq ids) -> length buf = np * nq ->
    put_rows buf ws = flat_map (fun p => map (eval p) (seq 0 nq)) (seq 0 np).
Proof.
  intros R hc eval np nq n H N. destruct (strided_ids_run hc (np * nq) n H N) as (ids & E & Pm).
  exists ids. split; [easy|]. intros ws buf Pw L. eapply eval_any_order; eauto.
Qed.

Lemma C58_sample_holds : forall R same bounds (eval : nat -> list Qc -> R) pd res hc np n,
  0 < pd -> (2 <= res)%Z -> 0 < np -> (1 <= n)%Z ->
  (same = true -> forall p, p < np -> bounds p = bounds 0) ->
  (same = false -> chunks_fit (Z.of_nat np) n) ->
  exists ws, sample_writes same bounds eval pd res hc np n = Some ws /\
    forall ws' buf, Permutation ws' ws -> length buf = np * Z.to_nat res ^ pd ->
      put_rows buf ws' =
      flat_map (fun p => map (fun q => eval p (sample_point pd res (bounds p) q)) (seq 0 (Z.to_nat res ^ pd)))
               (seq 0 np).
Proof. exact @sample_any_order. Qed.

Lemma C58_centers_holds : forall pd bounds i side j, i < pd -> side < 2 -> j < pd ->
  let row := nth (2 * i + side) (boundary_centers pd bounds) [] in
  length row = pd /\
  nth j row 0%Qc = if j =? i then nth (if side =? 0 then i else i + pd) bounds 0%Qc
                   else ((nth j bounds 0 + nth (j + pd)%nat bounds 0) / inj 2)%Qc.
Proof.
  intros pd bounds i side j Hi Hs Hj. cbn zeta. rewrite boundary_centers_nth by easy.
  split; [now rewrite map_length, seq_length|].
  rewrite (nth_indep _ 0%Qc ((fun j => if i =? j then nth (j + side * pd) bounds 0%Qc
                else (qc 1 2 * (nth j bounds 0 + nth (j + pd)%nat bounds 0))%Qc) 0)) by (now rewrite map_length, seq_length).
  rewrite (map_nth (fun j => if i =? j then nth (j + side * pd) bounds 0%Qc
                else (qc 1 2 * (nth j bounds 0 + nth (j + pd)%nat bounds 0))%Qc)), seq_nth by easy.
  cbn [Nat.add]. rewrite (Nat.eqb_sym j i). destruct (Nat.eqb_spec i j) as [->|].
  - destruct side as [|[|side]]; [| |lia]; cbn [Nat.eqb]; f_equal; lia.
  - replace (qc 1 2) with (/ inj 2)%Qc by (apply Qc_is_canon; vm_compute; reflexivity).
    unfold Qcdiv. ring.
Qed.

Lemma C58_empty_refuted_holds :
  strided_ids 4 (3 * 0) 2 = None /\ strided_ids 4 (3 * 0) 1 = Some [].
Proof. split; vm_compute; reflexivity. Qed.

Lemma C58_example_holds :
  match strided_ids 4 (2 * 3) 4 with
  | Some ids => ids = [0; 4; 1; 5; 2; 3] /\
      put_rows (repeat 0 6) (eval_writes (fun p q => 10 * p + q) 3 ids) = [0; 1; 2; 10; 11; 12]
  | None => False
  end.
Proof. vm_compute. split; reflexivity. Qed.

Lemma C32_uncached_holds :
  forall P B O (sub_of : P -> B) conn_of boundary_of faces_of (orient_of : P -> _ -> Qc -> O),
  (forall p, 0 < faces_of p) -> forall p h o, plain P o ->
  right_answer P B O sub_of conn_of boundary_of faces_of orient_of
    (grun P conn_of (Given _ p None) (h ++ [o])) o
    (snd (mstep P B O sub_of conn_of boundary_of faces_of orient_of
       (mrun P B O sub_of conn_of boundary_of faces_of orient_of (fresh P B O p) h) o)).
Proof. intros P B O sub_of conn_of boundary_of faces_of orient_of F. exact (uncached_right P B O sub_of conn_of boundary_of faces_of orient_of). Qed.

Lemma C32_lists_partial_holds :
  forall P B O (sub_of : P -> B) conn_of boundary_of faces_of (orient_of : P -> _ -> Qc -> O),
  (forall p, 0 < faces_of p) -> forall p0 h p w tol r o,
  Forall (plain P) w -> Forall (gentle P tol) r -> gentle P tol o ->
  (match o with ReadSub _ => False | ReadBoundary _ bid => (0 < bid)%Z | _ => True end) ->
  right_answer P B O sub_of conn_of boundary_of faces_of orient_of
    (grun P conn_of (Given _ p0 None) (h ++ SetPatches _ p :: w ++ r ++ [o])) o
    (snd (mstep P B O sub_of conn_of boundary_of faces_of orient_of
       (mrun P B O sub_of conn_of boundary_of faces_of orient_of (fresh P B O p0) (h ++ SetPatches _ p :: w ++ r)) o)).
Proof. exact after_assignment. Qed.

Lemma C32_orientations_partial_holds :
  forall P B O (sub_of : P -> B) conn_of boundary_of faces_of (orient_of : P -> _ -> Qc -> O),
  (forall p, 0 < faces_of p) -> forall p0 h o0 tol r, renews P o0 -> Forall (gentle P tol) r ->
  right_answer P B O sub_of conn_of boundary_of faces_of orient_of
    (grun P conn_of (Given _ p0 None) (h ++ o0 :: r ++ [ReadOrientations _ tol])) (ReadOrientations _ tol)
    (snd (mstep P B O sub_of conn_of boundary_of faces_of orient_of
       (mrun P B O sub_of conn_of boundary_of faces_of orient_of (fresh P B O p0) (h ++ o0 :: r)) (ReadOrientations _ tol))).
Proof. exact after_reset. Qed.

Lemma C32_first_partial_holds :
  forall P B O (sub_of : P -> B) conn_of boundary_of faces_of (orient_of : P -> _ -> Qc -> O),
  (forall p, 0 < faces_of p) -> forall p w tol r o,
  Forall (plain P) w -> Forall (gentle P tol) r -> gentle P tol o ->
  right_answer P B O sub_of conn_of boundary_of faces_of orient_of
    (grun P conn_of (Given _ p None) (w ++ r ++ [o])) o
    (snd (mstep P B O sub_of conn_of boundary_of faces_of orient_of
       (mrun P B O sub_of conn_of boundary_of faces_of orient_of (fresh P B O p) (w ++ r)) o)).
Proof. exact from_new. Qed.

(** A multipatch of which everything is a function of the table of its interfaces. *)
Notation demo_step := (mstep (list Z) (list Z) Qc (fun p => p) (fun p => p)
  (fun p l => map (fun i => nth i p 0%Z) l) (fun _ => 4) (fun _ _ tol => tol)).
Notation demo_run := (mrun (list Z) (list Z) Qc (fun p => p) (fun p => p)
  (fun p l => map (fun i => nth i p 0%Z) l) (fun _ => 4) (fun _ _ tol => tol)).
Notation demo_new := (fresh (list Z) (list Z) Qc).
Notation demo_right := (right_answer (list Z) (list Z) Qc (fun p => p) (fun p => p)
  (fun p l => map (fun i => nth i p 0%Z) l) (fun _ => 4) (fun _ _ tol => tol)).
Notation demo_given := (grun (list Z) (fun p => p)).

Definition wrong (p : list Z) (h : list (mop (list Z))) (o : mop (list Z)) : Prop :=
  ~ demo_right (demo_given (Given _ p None) (h ++ [o])) o (snd (demo_step (demo_run (demo_new p) h) o)).

Lemma C32_sub_refuted_holds : exists p q, wrong p [ReadSub _; SetPatches _ q] (ReadSub _).
Proof. exists [(-1)%Z], [(-2)%Z]. unfold wrong. cbn. intros H. discriminate H. Qed.

Lemma C32_boundary_refuted_holds :
  exists p q, wrong p [ReadBoundary _ (-1); SetPatches _ q] (ReadBoundary _ (-1)).
Proof.
  exists [(-1)%Z], [(-2)%Z]. unfold wrong. cbn. intros (l & H & R & I). injection H as H.
  destruct l as [|i l]; [discriminate H|]. destruct (proj1 (I i) (or_introl eq_refl)) as [L _].
  cbn in L. assert (i = 0) by lia. subst i. cbn in H. discriminate H.
Qed.

Lemma C32_ids_refuted_holds :
  (exists p t, wrong p [ReadIds _ (-1); SetInterfaces _ t] (ReadIds _ (-1))) /\
  (exists p t, wrong p [SetInterfaces _ t; ReadIds _ (-1); Recompute _] (ReadIds _ (-1))).
Proof.
  split.
  - exists [(-1); (-1)]%Z, [(-1); 0]%Z. unfold wrong. cbn. intros (l & H & R & I). injection H as <-.
    destruct (proj1 (I 1)) as (_ & X & _); [cbn; auto|]. cbn in X. lia.
  - exists [(-1); 0]%Z, [(-1); (-1)]%Z. unfold wrong. cbn. intros (l & H & R & I). injection H as <-.
    destruct (proj1 (I 1)) as (_ & X & _); [cbn; auto|]. cbn in X. lia.
Qed.

Lemma C32_orientations_refuted_holds :
  (exists p f, wrong p [ReadOrientations _ 0%Qc; EditInterfaces _ f] (ReadOrientations _ 0%Qc)) /\
  (exists p, wrong p [ReadOrientations _ 0%Qc] (ReadOrientations _ 1%Qc)).
Proof.
  split.
  - exists [4; (-1); (-1); (-1); 0]%Z, (fun _ => [(-1); (-1); (-1); (-1); (-1)]%Z). unfold wrong. cbn.
    intros (o & H & l & _ & I & F). injection H as <-. inversion F as [|i e l' o' _ _ E1 E2]; subst.
    destruct (proj1 (I i) (or_introl eq_refl)) as [L X]. cbn in L.
    do 5 (destruct i as [|i]; [cbn in X; lia|]). lia.
  - exists [4; (-1); (-1); (-1); 0]%Z. unfold wrong. cbn.
    intros (o & H & l & _ & I & F). injection H as <-.
    inversion F as [|i e l' o' (p1 & f1 & p2 & f2 & E & _) _ E1 E2]; subst. inversion E.
Qed.

Lemma C32_zero_refuted_holds : exists p, wrong p [] (ReadIds _ 0).
Proof.
  exists [1; 0]%Z. unfold wrong. cbn. intros (l & H & R & I). injection H as <-.
  destruct (proj1 (I 1)) as (_ & X & _); [cbn; auto|]. cbn in X. lia.
Qed.

Lemma C32_example_holds :
  let h := [SetPatches _ [3; 2; 1; 0; -1]%Z; SetInterfaces _ [1; 0; -2; -1]%Z; ReadIds _ (-1)%Z;
            EditInterfaces _ (map (fun v => if (v <? 0)%Z then (v - 3)%Z else v))] in
  Forall (plain _) (firstn 2 h) /\ Forall (gentle _ 0%Qc) (skipn 2 h) /\
  snd (demo_step (demo_run (demo_new [(-1)%Z]) h) (ReadIds _ (-1)%Z)) = Ids _ _ [2; 3] /\
  snd (demo_step (demo_run (demo_new [(-1)%Z]) h) (ReadIds _ 5%Z)) = Ids _ _ [2].
Proof.
  cbn zeta. refine (conj _ (conj _ (conj _ _))); try reflexivity.
  - repeat constructor.
  - constructor; [easy|]. constructor; [|constructor]. cbn. intros t. split; [now rewrite map_length|]. intros i Hi.
    rewrite (nth_indep (map _ t) 0%Z ((fun v => if (v <? 0)%Z then (v - 3)%Z else v) 0%Z)) by (now rewrite map_length).
    rewrite (map_nth (fun v => if (v <? 0)%Z then (v - 3)%Z else v)).
    destruct (Z.ltb_spec (nth i t 0%Z) 0); lia.
Qed.

