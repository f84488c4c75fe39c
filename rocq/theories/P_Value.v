(** Facts about splines of all families. *)
From Coq Require Import List Arith Lia QArith Qcanon Permutation.
From Verif Require Import Base BaseRadix BaseQc S_Grid P_Grid S_Spline S_Value P_Basis P_Spline.
Import ListNotations.
Local Open Scope Qc_scope.

Lemma ax_n_pos a : ax_wf a -> (0 < ax_n a)%nat.
Proof.
  destruct a as [p|p kv]; cbn; intros H; [lia|].
  destruct H as (H1 & H2 & H3). destruct (length kv - p - 1)%nat eqn:E; [|lia].
  exfalso. pose proof (kn_mono kv H2 0%nat p ltac:(lia)). qlra.
Qed.
Lemma res_pos s : sp_wf s -> Forall (fun r => (0 < r)%nat) (sp_res s).
Proof.
  intros (H & _). unfold sp_res. apply Forall_map. eapply Forall_impl; [|exact H].
  exact ax_n_pos.
Qed.
Lemma ax_n_degree a : ax_wf a -> (ax_degree a < ax_n a)%nat.
Proof.
  destruct a as [p|p kv]; cbn; intros H; [lia|].
  destruct H as (H1 & H2 & H3).
  destruct (le_lt_dec (length kv - p - 1) p) as [L|]; auto.
  pose proof (kn_mono kv H2 _ _ L). exfalso. qlra.
Qed.

Lemma kn_const kv a b k : non_decreasing kv -> kn kv a = kn kv b -> (a <= k)%nat -> (k <= b)%nat ->
  kn kv k = kn kv b.
Proof.
  intros H E Ha Hb. pose proof (kn_mono kv H a k Ha). pose proof (kn_mono kv H k b Hb).
  rewrite E in H0. now apply Qcle_antisym.
Qed.

Lemma qpow_0 n : qpow 0 n = if Nat.eqb n 0 then 1 else 0.
Proof. destruct n; cbn; ring. Qed.
Lemma qpow_1 n : qpow 1 n = 1.
Proof. induction n; cbn; [ring|]. rewrite IHn. ring. Qed.
Lemma binom_0 n : binom n 0 = 1%nat.
Proof. destruct n; reflexivity. Qed.
Lemma binom_gt n k : (n < k)%nat -> binom n k = 0%nat.
Proof.
  revert k; induction n; intros [|k] H; cbn; try lia. rewrite !IHn by lia. reflexivity.
Qed.
Lemma binom_diag n : binom n n = 1%nat.
Proof. induction n; cbn; auto. rewrite IHn, binom_gt by lia. reflexivity. Qed.

Lemma bernstein_0 p i : bernstein p i 0 = if Nat.eqb i 0 then 1 else 0.
Proof.
  unfold bernstein. replace (1 - 0) with 1 by ring. rewrite qpow_1, qpow_0.
  destruct (Nat.eqb_spec i 0) as [->|]; [|ring]. rewrite binom_0, inj_1. ring.
Qed.
Lemma bernstein_1 p i : (i <= p)%nat -> bernstein p i 1 = if Nat.eqb i p then 1 else 0.
Proof.
  intros H. unfold bernstein. replace (1 - 1) with 0 by ring. rewrite qpow_1, qpow_0.
  destruct (Nat.eqb_spec i p) as [->|].
  - rewrite Nat.sub_diag, binom_diag, inj_1. cbn. ring.
  - destruct (Nat.eqb_spec (p - i) 0); [lia|ring].
Qed.

(** End point interpolation. *)
Lemma ax_fun_lower a i :
  ax_wf a -> ax_clamped a -> ax_fun a (ax_lower a) i = if Nat.eqb i 0 then 1 else 0.
Proof.
  destruct a as [p|p kv]; cbn [ax_fun ax_lower ax_wf ax_clamped]; intros W C.
  - apply bernstein_0.
  - set (n := ax_n (KnotAxis p kv)) in *. destruct C as (C1 & C2 & C3 & C4).
    assert (Hpn : (p < n)%nat) by apply (ax_n_degree (KnotAxis p kv) W).
    pose proof W as (L & N & D). pose proof (kn_mono kv N) as M.
    unfold bspline_basis. rewrite (find_span_unique kv p n (kn kv p) p); auto.
    + rewrite basis_blossom, blossom_at_left; auto.
      * destruct (Nat.eqb_spec (i + p) p), (Nat.eqb_spec i 0); auto; lia.
      * replace (S p) with (p + 1)%nat by lia. auto.
      * intros k H1 H2. apply (kn_const kv 0 p); auto. lia.
    + split; [apply Qcle_refl|]. apply M. lia.
    + replace (S p) with (p + 1)%nat by lia. unfold is_span. replace (S p) with (p + 1)%nat by lia.
      pose proof (Qcle_refl (kn kv p)). split; [lia|]. tauto.
Qed.

Lemma ax_fun_upper a i :
  ax_wf a -> ax_clamped a -> (i < ax_n a)%nat ->
  ax_fun a (ax_upper a) i = if Nat.eqb i (ax_n a - 1) then 1 else 0.
Proof.
  destruct a as [p|p kv]; cbn [ax_fun ax_upper ax_wf ax_clamped]; intros W C Hi.
  - cbn [ax_n] in *. rewrite bernstein_1 by lia. now replace (p + 1 - 1)%nat with p by lia.
  - set (n := ax_n (KnotAxis p kv)) in *. destruct C as (C1 & C2 & C3 & C4).
    assert (Hpn : (p < n)%nat) by apply (ax_n_degree (KnotAxis p kv) W).
    pose proof W as (L & N & D). pose proof (kn_mono kv N) as M.
    unfold bspline_basis. rewrite (find_span_unique kv p n (kn kv n) (n - 1)); auto.
    + rewrite basis_blossom, blossom_at_right; auto.
      * now replace (S (n - 1)) with n by lia.
      * intros k H1 H2. rewrite C4. apply (kn_const kv n (n + p)); auto; lia.
    + split; [|apply Qcle_refl]. apply M. lia.
    + unfold is_span. replace (S (n - 1)) with n by lia.
      pose proof (Qclt_le_weak _ _ C3). split; [lia|]. split; [lia|]. tauto.
Qed.

Lemma combine_app {A B} (a1 a2 : list A) (b1 b2 : list B) :
  length a1 = length b1 -> combine (a1 ++ a2) (b1 ++ b2) = combine a1 b1 ++ combine a2 b2.
Proof.
  revert b1; induction a1; intros [|b b1] H; cbn in *; try lia; auto. f_equal. apply IHa1. lia.
Qed.

(** Bases of concatenated axis lists. *)
Lemma sp_basis_app a1 a2 u1 u2 :
  length a1 = length u1 -> sp_basis (a1 ++ a2) (u1 ++ u2) = sp_basis a1 u1 ++ sp_basis a2 u2.
Proof.
  intros H. unfold sp_basis. rewrite combine_app by auto. apply map_app.
Qed.
Lemma sp_basis_fst axes us :
  length us = length axes -> map fst (sp_basis axes us) = map ax_n axes.
Proof.
  revert us; induction axes as [|a axes IH]; intros [|u us] H; cbn in *; try lia; auto.
  f_equal. apply IH. lia.
Qed.
Lemma sp_basis_length axes us :
  length us = length axes -> length (sp_basis axes us) = length axes.
Proof. intros H. unfold sp_basis. rewrite map_length, combine_length. lia. Qed.


(** The weighted sum of a function of the control point id. *)
Definition functional (axes : list paxis) (us : list Qc) (f : nat -> Qc) : Qc :=
  tensor (sp_basis axes us) (fun ix => f (flat_id (map ax_n axes) ix)).

Lemma functional_ext axes us f f' :
  length us = length axes ->
  (forall g, (g < prodn (map ax_n axes))%nat -> f g = f' g) ->
  functional axes us f = functional axes us f'.
Proof.
  intros L H. unfold functional. apply tensor_ext_c. rewrite sp_basis_fst by auto.
  intros ix V. apply H. rewrite flat_id_undigits by (now apply valid_length). now apply undigits_lt.
Qed.

Lemma sp_value_functional s us d :
  sp_value s us d =
  match sp_weights s with
  | None => functional (sp_axes s) us (fun g => nth d (nth g (sp_cps s) []) 0)
  | Some ws => functional (sp_axes s) us (fun g => nth g ws 0 * nth d (nth g (sp_cps s) []) 0) /
               functional (sp_axes s) us (fun g => nth g ws 0)
  end.
Proof. unfold sp_value. destruct (sp_weights s); reflexivity. Qed.

(** l' consists of the rows of l chosen by sigma. *)
Definition reindexed {A} (n' : nat) (sigma : nat -> nat) (l l' : list A) : Prop :=
  length l' = n' /\ forall g, (g < n')%nat -> nth_error l' g = nth_error l (sigma g).

Lemma reindexed_nth {A} n' sigma (l l' : list A) g d :
  reindexed n' sigma l l' -> (g < n')%nat -> nth g l' d = nth (sigma g) l d.
Proof.
  intros [L H] Hg. specialize (H g Hg).
  rewrite (nth_error_nth' l' d) in H by lia. symmetry in H. symmetry.
  apply nth_error_nth with (1 := H).
Qed.

Lemma value_transfer s us s' us' sigma d :
  length us' = length (sp_axes s') ->
  reindexed (prodn (sp_res s')) sigma (sp_cps s) (sp_cps s') ->
  match sp_weights s, sp_weights s' with
  | None, None => True
  | Some w, Some w' => reindexed (prodn (sp_res s')) sigma w w'
  | _, _ => False
  end ->
  (forall f, functional (sp_axes s') us' (fun g => f (sigma g)) = functional (sp_axes s) us f) ->
  sp_value s' us' d = sp_value s us d.
Proof.
  intros L Hc Hw HF. rewrite !sp_value_functional.
  destruct (sp_weights s) as [w|], (sp_weights s') as [w'|]; try easy.
  - rewrite <- !HF. f_equal.
    + apply functional_ext; auto. intros g Hg.
      now rewrite (reindexed_nth _ _ _ _ g 0 Hw Hg), (reindexed_nth _ _ _ _ g [] Hc Hg).
    + apply functional_ext; auto. intros g Hg.
      now rewrite (reindexed_nth _ _ _ _ g 0 Hw Hg).
  - rewrite <- HF. apply functional_ext; auto. intros g Hg.
    now rewrite (reindexed_nth _ _ _ _ g [] Hc Hg).
Qed.

(** Fixing one axis at a parameter where its basis is a unit vector. *)
Lemma functional_slice pre a post v1 v2 u plane sigma f :
  length v1 = length pre -> length v2 = length post -> (plane < ax_n a)%nat ->
  (forall i, (i < ax_n a)%nat -> ax_fun a u i = if Nat.eqb i plane then 1 else 0) ->
  (forall d1 d2, valid_digits (map ax_n pre) d1 -> valid_digits (map ax_n post) d2 ->
     sigma (undigits (map ax_n (pre ++ post)) (d1 ++ d2)) =
     undigits (map ax_n (pre ++ a :: post)) (d1 ++ plane :: d2)) ->
  functional (pre ++ post) (v1 ++ v2) (fun g => f (sigma g)) =
  functional (pre ++ a :: post) (v1 ++ u :: v2) f.
Proof.
  intros L1 L2 Hp Hd Hs. unfold functional.
  rewrite !sp_basis_app by auto.
  change (sp_basis (a :: post) (u :: v2)) with ((ax_n a, ax_fun a u) :: sp_basis post v2).
  rewrite tensor_axis, sp_basis_length by auto.
  rewrite (qsum_single _ (ax_n a) plane); auto.
  2:{ intros i Hi Hne. rewrite Hd by auto. destruct (Nat.eqb_spec i plane); [easy|ring]. }
  rewrite Hd by auto. rewrite Nat.eqb_refl, Qcmult_1_l.
  apply tensor_ext_c. rewrite map_app, !sp_basis_fst by auto.
  intros ix V. unfold valid_digits in V. apply Forall2_app_inv_l in V.
  destruct V as (i1 & i2 & V1 & V2 & ->).
  assert (Li1 : length i1 = length pre) by (rewrite <- (Forall2_len _ _ _ V1), map_length; auto).
  assert (Li2 : length i2 = length post) by (rewrite <- (Forall2_len _ _ _ V2), map_length; auto).
  rewrite <- Li1.
  rewrite firstn_app, Nat.sub_diag, firstn_all, firstn_O, app_nil_r.
  rewrite skipn_app, skipn_all, Nat.sub_diag. cbn [skipn app].
  rewrite !flat_id_undigits by (rewrite !map_length, !app_length; cbn; lia).
  rewrite Hs; auto.
Qed.

(** Equal basis functions give equal values. *)
Lemma value_axes_ext axes axes' cps w us us' d :
  length us = length axes -> length us' = length axes' ->
  Forall2 (fun au au' => ax_n (fst au) = ax_n (fst au') /\
     forall i, (i < ax_n (fst au))%nat -> ax_fun (fst au) (snd au) i = ax_fun (fst au') (snd au') i)
    (combine axes us) (combine axes' us') ->
  sp_value (Spl axes cps w) us d = sp_value (Spl axes' cps w) us' d.
Proof.
  intros L L' H.
  assert (E : map ax_n axes = map ax_n axes').
  { rewrite <- (sp_basis_fst axes us), <- (sp_basis_fst axes' us') by auto. unfold sp_basis.
    rewrite !map_map. induction H as [|? ? ? ? [H _] HF IH]; cbn in *; auto. f_equal; auto.
  }
  assert (B : forall c, tensor (sp_basis axes us) c = tensor (sp_basis axes' us') c).
  { intros c. apply tensor_ext; auto. unfold sp_basis. clear -H.
    induction H as [|? ? ? ? H HF IH]; cbn; constructor; auto. }
  unfold sp_value, sp_res. cbn [sp_axes sp_cps sp_weights]. rewrite <- E.
  destruct w; now rewrite !B.
Qed.
