(** Witnesses and assembly of the theorems of T_Interfaces. *)
From Coq Require Import List Arith ZArith Bool QArith Qcanon Lia.
From Verif Require Import Base BaseQc M_Knots M_Threads M_Interfaces S_Interfaces P_Interfaces.
Import ListNotations.
Local Open Scope nat_scope.

Lemma C31_matching_partial_holds : forall sqrt dim ps tol para_dim,
  root_bound sqrt -> 0 < dim -> points dim ps -> ps <> [] ->
  para_dim <> 0 -> length ps mod (para_dim * 2) = 0 ->
  ~ crowded tol ps ->
  exists conn, interfaces_from_centers sqrt dim ps tol para_dim = Connected conn /\
    interface_table tol ps conn.
Proof.
  intros sqrt dim ps tol para_dim Hs Hd Hp Ne Hpd Hm NC. unfold interfaces_from_centers.
  destruct (Nat.eqb_spec (length ps) 0) as [E|_]; [apply length_zero_iff_nil in E; tauto|].
  assert (Lm : length (extent dim ps) = dim) by (unfold extent; now rewrite map_length, seq_length).
  rewrite (find_run sqrt dim ps (extent dim ps) tol); auto.
  destruct (run_matching sqrt dim ps (extent dim ps) tol) as [conn [E T]]; auto.
  exists conn. rewrite E. auto.
Qed.

Lemma C31_conflict_partial_holds : forall sqrt dim ps tol para_dim,
  root_bound sqrt -> 0 < dim -> points dim ps -> ps <> [] ->
  para_dim <> 0 -> length ps mod (para_dim * 2) = 0 ->
  separated tol ps ->
  (interfaces_from_centers sqrt dim ps tol para_dim = Conflict <-> crowded tol ps).
Proof.
  intros sqrt dim ps tol para_dim Hs Hd Hp Ne Hpd Hm Sep.
  assert (Lm : length (extent dim ps) = dim) by (unfold extent; now rewrite map_length, seq_length).
  assert (Run : interfaces_from_centers sqrt dim ps tol para_dim =
     match sweep (closeb tol (fun i j => sq_distance dim (nth i ps []) (nth j ps [])))
       (stable_argsort (map (scalar dim (normed sqrt (extent dim ps))) ps)) (map (fun _ => (-2)%Z) ps)
     with Some c => Connected c | None => Conflict end).
  { unfold interfaces_from_centers.
    destruct (Nat.eqb_spec (length ps) 0) as [E|_]; [apply length_zero_iff_nil in E; tauto|].
    now apply find_run. }
  rewrite Run. split.
  - intros E.
    assert (D : crowded tol ps \/ ~ crowded tol ps) by (apply (crowded_dec sqrt dim ps (extent dim ps) tol); auto).
    destruct D as [|D]; auto. exfalso.
    destruct (run_matching sqrt dim ps (extent dim ps) tol) as [conn [E' T]]; auto.
    rewrite E' in E. discriminate.
  - intros C. now rewrite (run_crowded sqrt dim ps (extent dim ps) tol).
Qed.

Lemma C31_sound_holds : forall sqrt dim ps tol para_dim conn,
  root_bound sqrt -> 0 < dim -> points dim ps -> ps <> [] ->
  para_dim <> 0 -> length ps mod (para_dim * 2) = 0 ->
  interfaces_from_centers sqrt dim ps tol para_dim = Connected conn ->
  length conn = length ps /\
  forall i, i < length ps -> nth i conn 0%Z = (-1)%Z \/
    exists j, nth i conn 0%Z = Z.of_nat j /\ meet tol ps i j.
Proof.
  intros sqrt dim ps tol para_dim conn Hs Hd Hp Ne Hpd Hm. unfold interfaces_from_centers.
  destruct (Nat.eqb_spec (length ps) 0) as [E|_]; [apply length_zero_iff_nil in E; tauto|].
  assert (Lm : length (extent dim ps) = dim) by (unfold extent; now rewrite map_length, seq_length).
  rewrite (find_run sqrt dim ps (extent dim ps) tol); auto.
  destruct (sweep _ _ _) as [c|] eqn:E; [|discriminate]. intros Ec. injection Ec as ->.
  apply (run_sound sqrt dim ps (extent dim ps) tol) in E; auto. destruct E as [L F]. split; auto.
  intros i Hi. destruct (F i Hi) as [|[j [E [Hj [HR Nij]]]]]; auto.
  right. exists j. split; auto.
  apply (proj1 (R_meet sqrt dim ps (extent dim ps) tol Hp i j Hi Hj)). now split.
Qed.

Definition two_patches : list (list Qc) := map point [0; 20; 20; 40]%Z.

Lemma C31_example_holds :
  points 2 two_patches /\ length two_patches mod (1 * 2) = 0 /\
  ~ crowded 1 two_patches /\ separated 1 two_patches /\
  meet 1 two_patches 1 2 /\
  root_bound some_root /\
  interfaces_from_centers some_root 2 two_patches 1 1 = Connected [-1; 2; 1; -1]%Z.
Proof.
  assert (M : forall i j, meet 1 two_patches i j -> i = 1 /\ j = 2 \/ i = 2 /\ j = 1).
  { intros i j [Hi [Hj [Ne [_ C]]]]. cbn in Hi, Hj.
    do 4 (destruct i as [|i]; [do 4 (destruct j as [|j]; [first [lia | exfalso; vm_compute in C; discriminate]|]); lia|]).
    lia. }
  split; [apply Forall_forall; intros p Hp; apply in_map_iff in Hp; destruct Hp as [z [<- _]]; reflexivity|].
  split; [reflexivity|].
  split. { intros [i [j [k [M1 [M2 N]]]]]. apply M in M1, M2. lia. }
  split. { intros i j k M1 M2 N. apply M in M1, M2. lia. }
  split. { repeat split; cbn; try lia. }
  split; [exact some_root_bound|]. unfold two_patches. rewrite flat_run by (discriminate || exact some_root_bound || reflexivity).
  vm_compute. reflexivity.
Qed.

Lemma C31_symmetry_refuted_holds : forall sqrt, root_bound sqrt ->
  exists ps tol conn i j,
    interfaces_from_centers sqrt 2 ps tol 1 = Connected conn /\
    i < length ps /\ j < length ps /\ nth i conn 0%Z = Z.of_nat j /\ nth j conn 0%Z <> Z.of_nat i.
Proof.
  intros sqrt Hs. exists (map point [0; 12; 6; 50]%Z), 1%Qc, [2; 2; 1; -1]%Z, 0, 2.
  refine (conj _ (conj _ (conj _ (conj eq_refl _)))); [|cbn; lia|cbn; lia|cbn; lia].
  rewrite flat_run by (auto; discriminate). vm_compute. reflexivity.
Qed.

Lemma C31_missed_refuted_holds : forall sqrt, root_bound sqrt ->
  exists ps tol conn i j,
    interfaces_from_centers sqrt 2 ps tol 1 = Connected conn /\
    meet tol ps i j /\ nth i conn 0%Z = (-1)%Z.
Proof.
  intros sqrt Hs. exists (map point [0; 6; -6; 50]%Z), 1%Qc, [1; 0; -1; -1]%Z, 2, 0.
  refine (conj _ (conj _ eq_refl)).
  - rewrite flat_run by (auto; discriminate). vm_compute. reflexivity.
  - repeat split; cbn; try lia.
Qed.

Lemma C55_pairs_holds : forall faces conn, 0 < faces ->
  NoDup (pairs faces conn) /\
  (forall p f q g, In (p, f, (q, g)) (pairs faces conn) <->
     exists i j, i < length conn /\ i < j /\ nth i conn 0%Z = Z.of_nat j /\
       p = i / faces /\ f = i mod faces /\ q = j / faces /\ g = j mod faces) /\
  (symmetric_table conn ->
     2 * length (pairs faces conn) = length (filter (fun z => 0 <=? z)%Z conn)).
Proof.
  intros faces conn H. split; [now apply pairs_NoDup|]. split; [intros; now apply pairs_In|].
  intros Sy. now apply pairs_count.
Qed.

Lemma C55_example_holds :
  symmetric_table [-1; 4; -1; -1; 1; -1; -1; -3]%Z /\
  pairs 4 [-1; 4; -1; -1; 1; -1; -1; -3]%Z = [(0, 1, (1, 0))].
Proof.
  split; [|reflexivity]. intros i Hi Hp.
  do 8 (destruct i as [|i]; [cbn in Hp; try lia; cbn; first [exists 4; repeat split; lia | exists 1; repeat split; lia]|]).
  cbn in Hi. lia.
Qed.

Lemma C56_orientation_partial_holds : forall sqrt tol js je fs fe i,
  root_bound sqrt -> root_exact sqrt -> (0 < tol)%Qc -> (tol < 1)%Qc -> i < length js ->
  (i = fs / 2 -> nth i (orientation sqrt tol js je fs fe) None =
     Some (fe / 2, negb (Bool.eqb (Nat.even fs) (Nat.even fe)))) /\
  (forall j c, i <> fs / 2 -> same_line tol (nth i js []) je j c ->
     nth i (orientation sqrt tol js je fs fe) None = Some (j, qltb 0 c)).
Proof. exact orientation_spec. Qed.

Lemma C56_example_holds :
  root_bound some_root /\ root_exact some_root /\
  same_line (qc 1 10) [0; - (1 + 1)]%Qc [[1; 1]; [0; 1]]%Qc 1 (- (1 + 1)) /\
  orientation some_root (qc 1 10) [[1; 0]; [0; - (1 + 1)]]%Qc [[1; 1]; [0; 1]]%Qc 1 0 =
    [Some (0, true); Some (1, false)].
Proof.
  split; [exact some_root_bound|]. split; [exact some_root_exact|].
  assert (SL : same_line (qc 1 10) [0; - (1 + 1)]%Qc [[1; 1]; [0; 1]]%Qc 1 (- (1 + 1))).
  { refine (conj _ (conj _ (conj _ (conj _ _)))).
    - cbn. lia.
    - discriminate.
    - discriminate.
    - cbn. f_equal.
    - intros k Hk Ne. cbn in Hk. assert (k = 0) by lia. subst k. vm_compute. discriminate. }
  split; [exact SL|]. vm_compute. reflexivity.
Qed.

Lemma C56_uninitialised_refuted_holds :
  nth 1 (orientation some_root (qc 1 10) [[1; 0]; [0; 1]] [[1; 1]; [1; - (1)]] 1 0)%Qc None = None.
Proof. vm_compute. reflexivity. Qed.

Lemma C57_extract_partial_holds : forall (A : Type) hc (boundary : nat -> nat -> A) faces conn n_threads,
  0 < faces -> 0 < n_threads -> length conn mod faces = 0 -> n_threads <= length conn / faces ->
  extract_all hc boundary (length conn / faces) faces n_threads conn =
  Some (map (fun i => boundary (i / faces) (i mod faces))
            (filter (fun i => nth i conn 0 <? 0)%Z (seq 0 (n_threads * faces)))).
Proof.
  intros A hc b faces conn nt Hf Hn Hm Hle. rewrite extract_all_run by exact Hn.
  destruct (Nat.ltb_spec (length conn / faces) nt); [lia|]. f_equal.
  rewrite (flat_map_block (fun i j => if (nth (i * faces + j) conn 0 <? 0)%Z then [b i j] else [])) by exact Hf.
  rewrite <- flat_map_if. rewrite !flat_map_concat_map. f_equal. apply map_ext. intros k.
  rewrite (Nat.mul_comm (k / faces)), <- Nat.div_mod by lia. reflexivity.
Qed.

Lemma C57_example_holds :
  length [-1; 2; 1; -1]%Z mod 2 = 0 /\ 2 <= length [-1; 2; 1; -1]%Z / 2 /\
  extract_all 8 (fun i j => (i, j)) 2 2 2 [-1; 2; 1; -1]%Z = Some [(0, 0); (1, 1)].
Proof. split; [reflexivity|]. split; [vm_compute; lia|]. rewrite extract_all_run by lia. reflexivity. Qed.

Lemma C57_refuted_holds : forall hc,
  extract_all hc (fun i j => (i, j)) 2 2 1 [-1; 2; 1; -1]%Z = Some [(0, 0)].
Proof. intros. rewrite extract_all_run by lia. reflexivity. Qed.
