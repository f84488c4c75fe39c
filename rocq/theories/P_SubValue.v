(** Proofs for extracted parts of splines: values. *)
From Coq Require Import List Arith ZArith Bool QArith Qcanon Lia Sorted.
From Verif Require Import Base BaseRadix BaseQc S_Grid P_Grid S_Spline S_Value P_Spline P_Value M_Numpy M_Grid M_Core M_Extract P_Extract M_Files M_Create S_Core P_Core S_Files P_Files S_Create P_Create S_SubSpline M_SubSpline P_SubSpline P_SubRounds P_SubCut.
Import ListNotations.
Local Open Scope list_scope.
Local Open Scope nat_scope.

Definition chosen {A} (n : nat) (sigma : nat -> nat) (l l' : option (list A)) : Prop :=
  match l, l' with None, None => True | Some w, Some w' => reindexed n sigma w w' | _, _ => False end.
Lemma chosen_rows {A} (P : A -> Prop) n sigma l l' : reindexed n sigma l l' -> Forall P l -> Forall P l'.
Proof.
  intros [L H] F. apply Forall_forall. intros x I. apply In_nth_error in I as (g & G).
  assert (g < n) as Hg by (rewrite <- L; apply nth_error_Some; congruence).
  rewrite H in G by auto. apply nth_error_In in G. rewrite Forall_forall in F. auto.
Qed.
Lemma picked limit dim c ids : sound limit dim c -> (forall i, In i ids -> i < prodn (sp_res c)) -> exists cps ws,
  pick (sp_cps c) ids = Some cps /\
  match sp_weights c with Some w => option_map Some (pick w ids) | None => Some None end = Some ws /\
  reindexed (length ids) (fun g => nth g ids 0) (sp_cps c) cps /\ chosen (length ids) (fun g => nth g ids 0) (sp_weights c) ws /\
  Forall (fun P => length P = dim) cps /\ match ws with Some w => Forall (fun x => (0 < x)%Qc) w | None => True end.
Proof.
  intros (St & (_ & Lc & Lw) & R & Pw) H. change (fold_right Nat.mul 1 (sp_res c)) with (prodn (sp_res c)) in *.
  destruct (pick_reindexed (sp_cps c) ids) as (cps & E & Re); [intros; rewrite Lc; auto|].
  destruct (sp_weights c) as [w|].
  - destruct (pick_reindexed w ids) as (w' & E' & Re'); [intros; rewrite Lw; auto|].
    exists cps, (Some w'). rewrite E'. cbn. repeat (split; [auto; try exact Re; try exact Re'; eapply chosen_rows; eauto|]). eapply chosen_rows; eauto.
  - exists cps, None. cbn. repeat (split; [auto; eapply chosen_rows; eauto|]). exact I.
Qed.

Lemma replace_at_app {A} (l1 : list A) x y l2 k : length l1 = k -> replace_at k y (l1 ++ x :: l2) = l1 ++ y :: l2.
Proof.
  intros <-. unfold replace_at. rewrite firstn_app, Nat.sub_diag, firstn_all, firstn_O, app_nil_r. f_equal. f_equal.
  rewrite skipn_app, skipn_all2 by lia. replace (S (length l1) - length l1) with 1 by lia. reflexivity.
Qed.

Section Cut.
Variables (limit dim : nat) (tol : Qc) (s c : spline) (k p : nat) (kv : list Qc) (pre post : list paxis).
Hypothesis So : sound limit dim c.
Hypothesis Ea : sp_axes c = pre ++ KnotAxis p kv :: post.
Hypothesis Lk : length pre = k.
Hypothesis Kw : sp_weights c = None <-> sp_weights s = None.
Let degree_of (a : paxis) := Z.of_nat (ax_degree a).

Lemma pos_n : Forall (fun r => 0 < r) (map ax_n pre) /\ Forall (fun r => 0 < r) (map ax_n post).
Proof.
  destruct So as (_ & (W & _) & _). rewrite Ea in W. apply Forall_app in W as [W1 W2]. inversion W2; subst.
  split; apply Forall_map; eapply Forall_impl; eauto; apply ax_n_pos.
Qed.
Lemma nth_c : nth_error (sp_axes c) k = Some (KnotAxis p kv).
Proof. rewrite Ea. now apply nth_middle_error. Qed.

(** What comes out for positions [P] of the axis. *)
Lemma taken ix P axs kvs : index_positions (ax_n (KnotAxis p kv)) ix = Some P -> 0 < length P -> Forall (fun i => i < ax_n (KnotAxis p kv)) P ->
  axs <> [] -> length axs <= limit -> Forall (of_kind (has_kvs s) limit dim) axs -> Forall ax_wf axs ->
  prodn (map ax_n axs) = prodn (map ax_n pre ++ length P :: map ax_n post) ->
  kvs = (if has_kvs s then Some (map ax_kv axs) else None) ->
  exists ids cps ws r, multi_index_getitem (sp_res c) (map (fun j => if j =? k then ix else ISlice None None None) (seq 0 (length (sp_axes c)))) = Some ids /\
    pick (sp_cps c) ids = Some cps /\
    match sp_weights c with Some w => option_map Some (pick w ids) | None => Some None end = Some ws /\
    r = Spl axs cps ws /\ make limit s (Inputs (Some (map degree_of axs)) kvs (Some cps) ws) = Some r /\ sound limit dim r /\
    (sp_weights r = None <-> sp_weights s = None) /\
    forall us' us d, length us' = length axs ->
      (forall sigma f, (forall d1 i d2, valid_digits (map ax_n pre) d1 -> i < length P -> valid_digits (map ax_n post) d2 ->
         sigma (undigits (map ax_n pre ++ length P :: map ax_n post) (d1 ++ i :: d2)) = undigits (map ax_n (pre ++ KnotAxis p kv :: post)) (d1 ++ nth i P 0 :: d2)) ->
         functional axs us' (fun g => f (sigma g)) = functional (sp_axes c) us f) ->
      sp_value r us' d = sp_value c us d.
Proof.
  intros HP HL HB N Ll Kd Wf Pr ->. destruct pos_n as [R1 R2].
  destruct (sub_ids (map ax_n pre) _ (map ax_n post) ix P HP R1 R2 HL HB) as (ids & Ei & Li & Bi & Hi).
  assert (sp_res c = map ax_n pre ++ ax_n (KnotAxis p kv) :: map ax_n post) as Er. { unfold sp_res. rewrite Ea, map_app. reflexivity. }
  rewrite <- Er in Ei, Bi. rewrite !map_length, Lk in Ei.
  destruct (picked limit dim c ids So Bi) as (cps & ws & E1 & E2 & Re & Rw & Rows & Pos).
  assert (length (sp_axes c) = k + S (length post)) as Ln by (rewrite Ea, app_length; cbn; lia).
  assert (length cps = prodn (map ax_n axs)) as Lc by (destruct Re as [L _]; now rewrite L, Li, Pr).
  assert (sp_weights s = None <-> ws = None) as Kw'.
  { rewrite <- Kw. unfold chosen in Rw. destruct (sp_weights c), ws; intuition congruence. }
  assert (match ws with Some w => length w = length cps | None => True end) as Lw.
  { unfold chosen in Rw. destruct (sp_weights c), ws; try easy. destruct Rw as [L _], Re as [L' _]. lia. }
  destruct So as (St & _ & R & _).
  destruct (build limit dim s axs cps ws N Ll (dim_pos limit dim c St R) Kd Rows Lc Kw' Lw) as [B1 B2].
  exists ids, cps, ws, (Spl axs cps ws). rewrite Ln. split; [exact Ei|]. split; [exact E1|]. split; [exact E2|]. split; [reflexivity|]. split; [exact B1|].
  split; [|split; [cbn; tauto|]].
  - refine (conj B2 (conj (conj Wf (conj Lc _)) (conj Rows Pos))). cbn. destruct ws; auto. rewrite Lw. exact Lc.
  - intros us' us d Lu HF. apply (value_transfer c us (Spl axs cps ws) us' (fun g => nth g ids 0)); auto.
    + cbn [sp_cps]. unfold sp_res. cbn [sp_axes]. rewrite Pr, <- Li. exact Re.
    + unfold chosen in Rw. unfold sp_res. cbn [sp_axes sp_weights]. rewrite Pr, <- Li. destruct (sp_weights c), ws; auto.
    + intros f. cbn [sp_axes]. apply HF. rewrite map_app. exact Hi.
Qed.

(** An interval. *)
Lemma cut_interval x0 x1 l1 K l2 axs : kv = l1 ++ K ++ l2 -> ax_wf (KnotAxis p K) ->
  last_near tol kv x0 = Some (length l1 + p) -> last_near tol kv x1 = Some (length l1 + ax_n (KnotAxis p K) + p) ->
  length axs <= limit -> Forall (of_kind (has_kvs s) limit dim) axs -> Forall ax_wf axs ->
  map degree_of axs = map degree_of (sp_axes c) -> map ax_n axs = map ax_n pre ++ ax_n (KnotAxis p K) :: map ax_n post ->
  (has_kvs s = true -> axs = pre ++ KnotAxis p K :: post) ->
  exists r, cut limit tol s c k x0 x1 true = Some r /\ sp_axes r = axs /\ sound limit dim r /\ (sp_weights r = None <-> sp_weights s = None) /\
    forall us' us d, length us' = length axs ->
      (forall sigma f, (forall d1 i d2, valid_digits (map ax_n pre) d1 -> i < ax_n (KnotAxis p K) -> valid_digits (map ax_n post) d2 ->
         sigma (undigits (map ax_n axs) (d1 ++ i :: d2)) = undigits (map ax_n (pre ++ KnotAxis p kv :: post)) (d1 ++ (length l1 + i) :: d2)) ->
         functional axs us' (fun g => f (sigma g)) = functional (sp_axes c) us f) ->
      sp_value r us' d = sp_value c us d.
Proof.
  intros Ekv WK E0 E1 Ll Kd Wf Ed En Ek. set (n := ax_n (KnotAxis p K)) in *.
  pose proof (ax_n_pos _ WK) as Hn. fold n in Hn. pose proof WK as (LK & _). fold n in LK.
  assert (length l1 + n <= ax_n (KnotAxis p kv)) as HB. { rewrite Ekv. cbn [ax_n]. rewrite !app_length. lia. }
  destruct (taken (ISlice (Some (Z.of_nat (length l1))) (Some (Z.of_nat (length l1 + n))) None) (seq (length l1) n) axs
    (if has_kvs s then Some (map ax_kv axs) else None)) as (ids & cps & ws & r & Ei & Ec & Ew & Er & Em & Sr & Kr & V); auto.
  - cbn [index_positions]. rewrite range_positions by lia. do 2 f_equal. lia.
  - rewrite seq_length. lia.
  - apply Forall_forall. intros i Hi. apply in_seq in Hi. lia.
  - intros ->. cbn in En. destruct (map ax_n pre); discriminate.
  - rewrite En, seq_length. reflexivity.
  - exists r. rewrite seq_length in V. split; [|split; [now rewrite Er|split; [exact Sr|split; [exact Kr|]]]].
    + unfold cut. rewrite nth_c. cbn [ax_degree ax_kv]. rewrite E0, E1.
      replace (Z.of_nat (length l1 + p) - Z.of_nat p)%Z with (Z.of_nat (length l1)) by lia.
      replace (Z.of_nat (length l1 + n + p) - Z.of_nat p)%Z with (Z.of_nat (length l1 + n)) by lia.
      cbn match. rewrite Ei, Ec, Ew. rewrite <- Em. f_equal. f_equal.
      * f_equal. exact (eq_sym Ed).
      * destruct (has_kvs s) eqn:Hk; auto. f_equal. rewrite (Ek eq_refl). unfold core_kvs. rewrite Ea, !map_app. cbn [map ax_kv].
        rewrite replace_at_app by (rewrite map_length; exact Lk). do 2 f_equal. rewrite Ekv.
        replace (Z.of_nat (length l1 + n) + Z.of_nat p + 1)%Z with (Z.of_nat (length l1 + length K)) by lia. apply slice_window.
    + intros us' us d Lu HF. apply V; auto. intros sigma f Hs. apply HF. intros d1 i d2 V1 Hi V2. rewrite En, Hs; auto.
      rewrite seq_nth by auto. reflexivity.
Qed.

(** A single value. *)
Lemma cut_slice x q axs : q < ax_n (KnotAxis p kv) ->
  (exists i, last_near tol kv x = Some i /\ Z.of_nat q = (Z.of_nat i - Z.of_nat p - (if qltb (qabs (last kv 0 - x)%Qc) tol then 1 else 0))%Z) ->
  axs <> [] -> Forall (of_kind (has_kvs s) limit dim) axs -> Forall ax_wf axs ->
  map degree_of axs = map degree_of (pre ++ post) -> map ax_n axs = map ax_n (pre ++ post) ->
  (has_kvs s = true -> axs = pre ++ post) ->
  exists r, cut limit tol s c k x x false = Some r /\ sp_axes r = axs /\ sound limit dim r /\ (sp_weights r = None <-> sp_weights s = None) /\
    forall us' us d, length us' = length axs ->
      (forall sigma f, (forall d1 d2, valid_digits (map ax_n pre) d1 -> valid_digits (map ax_n post) d2 ->
         sigma (undigits (map ax_n axs) (d1 ++ d2)) = undigits (map ax_n (pre ++ KnotAxis p kv :: post)) (d1 ++ q :: d2)) ->
         functional axs us' (fun g => f (sigma g)) = functional (sp_axes c) us f) ->
      sp_value r us' d = sp_value c us d.
Proof.
  intros Hq (i0 & E0 & Eq) N Kd Wf Ed En Ek.
  assert (prodn (map ax_n axs) = prodn (map ax_n pre ++ length [q] :: map ax_n post)) as Pr.
  { rewrite En, map_app, !prodn_app. cbn [length prodn fold_right]. change (fold_right Nat.mul 1 (map ax_n post)) with (prodn (map ax_n post)). lia. }
  assert (length axs <= limit) as Ll.
  { destruct So as (St & _ & R & _). destruct (kinds limit dim c St R) as (_ & L & _). apply (f_equal (@length nat)) in En. rewrite !map_length, app_length in En.
    rewrite Ea, app_length in L. cbn in L. lia. }
  destruct (taken (IInt (Z.of_nat q)) [q] axs (if has_kvs s then Some (map ax_kv axs) else None)) as (ids & cps & ws & r & Ei & Ec & Ew & Er & Em & Sr & Kr & V); auto.
  - now apply int_positions.
  - exists r. split; [|split; [now rewrite Er|split; [exact Sr|split; [exact Kr|]]]].
    + unfold cut. rewrite nth_c. cbn [ax_degree ax_kv]. rewrite E0.
      replace (if qltb (qabs (last kv 0 - x)%Qc) tol then (Z.of_nat i0 - Z.of_nat p - 1)%Z else (Z.of_nat i0 - Z.of_nat p)%Z) with (Z.of_nat q) by (destruct (qltb _ tol); lia).
      cbn match. rewrite Ei, Ec, Ew. rewrite <- Em. f_equal. f_equal.
      * f_equal. rewrite Ed. unfold core_degrees. rewrite Ea, !map_app. cbn [map]. rewrite <- Lk.
        replace (length pre) with (length (map degree_of pre)) by apply map_length. apply remove_at_app.
      * destruct (has_kvs s) eqn:Hk; auto. f_equal. rewrite (Ek eq_refl). unfold core_kvs. rewrite Ea, !map_app. cbn [map]. rewrite <- Lk.
        replace (length pre) with (length (map ax_kv pre)) by apply map_length. apply remove_at_app.
    + intros us' us d Lu HF. apply V; auto. intros sigma f Hs. apply HF. intros d1 d2 V1 V2.
      specialize (Hs d1 0 d2 V1 ltac:(cbn; lia) V2). cbn [nth] in Hs. rewrite <- Hs. f_equal. rewrite En, map_app.
      rewrite !undigits_app by (symmetry; symmetry; exact (Forall2_len _ _ _ V1)). cbn [undigits length]. lia.
Qed.
End Cut.
