(** Proofs about Bezier patches. *)
From Coq Require Import List Arith ZArith QArith Qcanon Lia Sorted.
From Verif Require Import Base BaseRadix BaseQc S_Grid P_Grid S_Spline P_Basis P_Spline S_Value P_Value S_Knots
  M_Knots P_Knots P_Bezier M_Extract P_Extract P_KnotGlobal M_Pieces S_Pieces.
Import ListNotations.
Local Open Scope nat_scope.

(** * Ids *)
Fixpoint offsets (ms : list (list nat)) (ii : nat) : list nat :=
  match ms with
  | [] => []
  | m :: ms => first_id m (ii mod n_patches m) :: offsets ms (ii / n_patches m)
  end.

Lemma firstn_S_sum c l : c < length l -> list_sum (firstn (S c) l) = list_sum (firstn c l) + nth c l 0.
Proof.
  revert l; induction c as [|c IH]; intros [|x l] H; cbn in H; try lia.
  - cbn. lia.
  - change (firstn (S (S c)) (x :: l)) with (x :: firstn (S c) l).
    change (firstn (S c) (x :: l)) with (x :: firstn c l).
    cbn [list_sum fold_right nth]. change (fold_right Nat.add 0) with list_sum. rewrite IH by lia. lia.
Qed.
Lemma first_id_S m c : S c < length m -> first_id m (S c) = first_id m c + nth (S c) m 0.
Proof.
  intros H. unfold first_id. destruct m as [|x m]; cbn in H; [lia|]. cbn [tl].
  rewrite firstn_S_sum by lia. reflexivity.
Qed.

Lemma advance_next ms ii ii' :
  Forall (fun m => 0 < n_patches m) ms -> ii' = ii \/ ii' = S ii ->
  advance ms (digits (map n_patches ms) ii) (offsets ms ii) ii' = (digits (map n_patches ms) ii', offsets ms ii').
Proof.
  intros H. revert ii ii'. induction H as [|m ms Hm H IH]; intros ii ii' E; [reflexivity|].
  cbn [advance map digits offsets].
  set (n := n_patches m) in *.
  assert (Q : (ii' - ii' mod n) / n = ii' / n).
  { pose proof (Nat.div_mod ii' n ltac:(lia)).
    replace (ii' - ii' mod n) with ((ii' / n) * n) by nia. now rewrite Nat.div_mul by lia. }
  rewrite Q.
  assert (D : (ii' mod n = ii mod n /\ ii' / n = ii / n) \/
              (ii' mod n = S (ii mod n) /\ ii' / n = ii / n) \/ (ii' mod n = 0 /\ ii' / n = S (ii / n))).
  { destruct E as [->| ->]; [now left|]. right.
    pose proof (Nat.div_mod ii n ltac:(lia)). pose proof (Nat.mod_upper_bound ii n ltac:(lia)).
    destruct (Nat.eq_dec (S (ii mod n)) n) as [F|F].
    - right. split; [symmetry; apply (Nat.mod_unique _ _ (S (ii / n))); nia|].
      symmetry. apply (Nat.div_unique _ _ _ 0); nia.
    - left. split; [symmetry; apply (Nat.mod_unique _ _ (ii / n)); nia|].
      symmetry. apply (Nat.div_unique _ _ _ (S (ii mod n))); nia. }
  rewrite IH by (destruct D as [(_ & ->)|[(_ & ->)|(_ & ->)]]; auto).
  destruct D as [(-> & _)|[(F & _)|(F & _)]].
  - now rewrite Nat.eqb_refl.
  - rewrite F. destruct (Nat.eqb_spec (ii mod n) (S (ii mod n))); [lia|]. cbn [fst snd Nat.eqb].
    rewrite first_id_S; [reflexivity|]. rewrite <- F. pose proof (Nat.mod_upper_bound ii' n ltac:(lia)).
    unfold n, n_patches in *. lia.
  - rewrite F. destruct (Nat.eqb_spec (ii mod n) 0) as [G|]; [rewrite G; reflexivity|reflexivity].
Qed.
Lemma advance_start ms : Forall (fun m => 0 < n_patches m) ms ->
  digits (map n_patches ms) 0 = repeat 0 (length ms) /\ offsets ms 0 = repeat 0 (length ms).
Proof.
  induction 1 as [|m ms Hm H [IH1 IH2]]; [easy|]. cbn [map digits offsets length repeat].
  rewrite Nat.mod_0_l, Nat.div_0_l by lia. now rewrite IH1, IH2.
Qed.

Lemma patch_loop_map ms degs i todo : Forall (fun m => 0 < n_patches m) ms ->
  patch_loop ms degs (digits (map n_patches ms) i) (offsets ms i) (S i) todo =
  map (fun k => ids_of_patch ms degs (offsets ms k)) (seq (S i) todo).
Proof.
  intros H. revert i; induction todo as [|todo IH]; intros i; [reflexivity|].
  cbn [patch_loop seq map]. rewrite (advance_next ms i (S i)) by auto. cbn [fst snd]. now rewrite IH.
Qed.
Lemma fold_mul_patches ms a : fold_left (fun a m => a * n_patches m) ms a = a * prodn (map n_patches ms).
Proof. revert a; induction ms; intros; cbn; [lia|]. rewrite IHms. lia. Qed.
Lemma fold_mul_degrees ds a : fold_left (fun a d => a * (d + 1)) ds a = a * prodn (map (fun d => d + 1) ds).
Proof. revert a; induction ds; intros; cbn; [lia|]. rewrite IHds. lia. Qed.

Lemma patch_ids_map ms degs :
  bezier_patch_ids ms degs =
  map (fun k => ids_of_patch ms degs (offsets ms k)) (seq 0 (prodn (map n_patches ms))).
Proof.
  unfold bezier_patch_ids. rewrite fold_mul_patches, Nat.mul_1_l.
  destruct (prodn (map n_patches ms)) as [|N] eqn:E; [reflexivity|].
  assert (H : Forall (fun m => 0 < n_patches m) ms).
  { apply (proj1 (Forall_map _ _ _)). apply prodn_pos_inv. lia. }
  destruct (advance_start ms H) as (E1 & E2).
  pose proof (advance_next ms 0 0 H (or_introl eq_refl)) as A. pose proof (patch_loop_map ms degs 0 N H) as B.
  rewrite E1, E2 in A, B. cbn [patch_loop seq map]. rewrite A. cbn [fst snd]. now rewrite B, E2.
Qed.

Definition plus2 (a b : list nat) : list nat := map (fun xy => fst xy + snd xy) (combine a b).

Lemma global_id_spec i b degs offs res layers : 0 < b -> length offs = length degs -> length res = length degs ->
  global_id i (index_offsets b degs) degs offs res layers =
  layers * undigits res (plus2 offs (digits (map (fun d => d + 1) degs) (i / b))).
Proof.
  revert b offs res layers; induction degs as [|d degs IH]; intros b [|o offs] [|r res] layers Hb H1 H2;
    cbn in H1, H2; try lia.
  - cbn. lia.
  - cbn [global_id index_offsets map digits plus2 combine undigits fst snd].
    rewrite IH by (try lia; nia). rewrite Nat.div_div by lia. unfold plus2. cbn [map fst snd undigits]. lia.
Qed.

Lemma offsets_digits ms ii : offsets ms ii = map (fun mc => first_id (fst mc) (snd mc)) (combine ms (digits (map n_patches ms) ii)).
Proof. revert ii; induction ms as [|m ms IH]; intros ii; cbn; [easy|]. now rewrite IH. Qed.

Lemma below_digits ns cs : below ns cs -> valid_digits ns cs.
Proof. auto. Qed.
Lemma patch_index_plus ms c j : patch_index ms c j =
  plus2 (map (fun mc => first_id (fst mc) (snd mc)) (combine ms c)) j.
Proof.
  unfold patch_index, plus2. revert c j; induction ms as [|m ms IH]; intros [|x c] [|y j]; cbn; try easy. now rewrite IH.
Qed.
Lemma resolution_eq ms degs : map (fun md => mesh_resolution (fst md) (snd md)) (combine ms degs) = points_per_axis ms degs.
Proof.
  unfold points_per_axis. apply map_ext. intros (m & d). cbn. unfold mesh_resolution.
  assert (G : forall a, fold_left Nat.add m a = a + list_sum m).
  { induction m; intros b; cbn; [lia|]. rewrite IHm. unfold list_sum. lia. }
  now rewrite G.
Qed.

Lemma nth_error_seq a n i : i < n -> nth_error (seq a n) i = Some (a + i).
Proof. intros H. rewrite (nth_error_nth' _ 0) by (now rewrite seq_length). now rewrite seq_nth. Qed.

Lemma patch_ids_spec ms degs : length ms = length degs ->
  length (bezier_patch_ids ms degs) = fold_right Nat.mul 1 (patches_per_axis ms) /\
  forall c, below (patches_per_axis ms) c ->
  exists ids, nth_error (bezier_patch_ids ms degs) (flat_id (patches_per_axis ms) c) = Some ids /\
    length ids = fold_right Nat.mul 1 (map (fun d => d + 1) degs) /\
    forall j, below (map (fun d => d + 1) degs) j ->
    nth_error ids (flat_id (map (fun d => d + 1) degs) j) =
    Some (flat_id (points_per_axis ms degs) (patch_index ms c j)).
Proof.
  intros L. rewrite patch_ids_map, map_length, seq_length. split; [symmetry; apply fold_right_mul_prodn|].
  intros c Hc. change (map n_patches ms) with (patches_per_axis ms).
  assert (LC : length c = length (patches_per_axis ms)) by now apply BaseRadix.valid_length.
  rewrite flat_id_undigits by auto.
  exists (ids_of_patch ms degs (offsets ms (undigits (patches_per_axis ms) c))). split; [|split].
  - rewrite nth_error_map, (nth_error_seq _ _ _ (undigits_lt _ _ Hc)). reflexivity.
  - unfold ids_of_patch. rewrite map_length, seq_length, fold_mul_degrees, Nat.mul_1_l. symmetry. apply fold_right_mul_prodn.
  - intros j Hj. assert (LJ : length j = length (map (fun d => d + 1) degs)) by now apply BaseRadix.valid_length.
    rewrite !flat_id_undigits.
    + unfold ids_of_patch. rewrite nth_error_map, nth_error_seq by (rewrite fold_mul_degrees, Nat.mul_1_l; now apply undigits_lt).
      cbn [option_map]. f_equal. rewrite global_id_spec.
      * rewrite Nat.div_1_r, Nat.mul_1_l, resolution_eq. cbn [Nat.add].
        rewrite digits_undigits by auto. rewrite offsets_digits. change (map n_patches ms) with (patches_per_axis ms).
        rewrite digits_undigits by auto. now rewrite patch_index_plus.
      * lia.
      * rewrite offsets_digits, map_length, combine_length, length_digits, map_length. lia.
      * rewrite map_length, combine_length. lia.
    + unfold patch_index, points_per_axis, patches_per_axis in *.
      rewrite ?map_length, ?combine_length, ?map_length in *. lia.
    + auto.
Qed.

(** * Knots of a piecewise Bezier axis *)
Lemma expand_cons x us k m : expand_knots (x :: us) (k :: m) = repeat x k ++ expand_knots us m.
Proof. reflexivity. Qed.
Lemma expand_length us m : length us = length m -> length (expand_knots us m) = list_sum m.
Proof.
  revert m; induction us as [|x us IH]; intros [|k m] H; cbn in H; try lia; [easy|].
  rewrite expand_cons, app_length, repeat_length, IH by lia. reflexivity.
Qed.
Lemma list_sum_cons x l : list_sum (x :: l) = x + list_sum l.
Proof. reflexivity. Qed.
Lemma expand_nth us m c i d : length us = length m -> c < length m ->
  list_sum (firstn c m) <= i < list_sum (firstn (S c) m) -> nth i (expand_knots us m) d = nth c us d.
Proof.
  revert m c i; induction us as [|x us IH]; intros [|k m] c i H Hc Hi; cbn in H, Hc; try lia.
  rewrite expand_cons. destruct c as [|c].
  - cbn [firstn] in Hi. rewrite list_sum_cons in Hi. cbn [list_sum fold_right] in Hi.
    rewrite app_nth1 by (rewrite repeat_length; lia). cbn [nth]. rewrite nth_indep with (d' := x) by (rewrite repeat_length; lia).
    apply nth_repeat.
  - cbn [firstn] in Hi. rewrite !list_sum_cons in Hi. rewrite app_nth2; rewrite repeat_length; [|lia].
    cbn [nth]. apply IH; try lia. cbn [firstn]. lia.
Qed.
Lemma firstn_sum_le c l : list_sum (firstn c l) <= list_sum l.
Proof. revert c; induction l as [|x l IH]; intros [|c]; cbn; try lia. specialize (IH c). unfold list_sum in IH. lia. Qed.

Lemma local_bernstein U s p a b q i u :
  (forall k, s < k + p -> k <= s -> U k = a) -> (forall k, s < k -> k <= s + p -> U k = b) -> (a < b)%Qc ->
  p <= s -> q <= p ->
  basis U s q i u = if (s - q <=? i) && (i <=? s) then bernstein q (i - (s - q)) ((u - a) / (b - a))%Qc else 0%Qc.
Proof.
  intros U0 U1 Hab Hp. assert (D : (b - a <> 0)%Qc) by qlra.
  revert i; induction q as [|q IH]; intros i Hq; cbn [basis].
  - destruct (Nat.eqb_spec i s) as [->|].
    + rewrite Nat.sub_0_r, Nat.leb_refl, Nat.sub_diag. cbn [andb]. now rewrite bernstein_00.
    + destruct (Nat.leb_spec (s - 0) i), (Nat.leb_spec i s); cbn; auto; lia.
  - rewrite !IH by lia.
    destruct (Nat.leb_spec (s - S q) i) as [H1|H1].
    2:{ destruct (Nat.leb_spec (s - q) i); [lia|]. destruct (Nat.leb_spec (s - q) (i + 1)); [lia|]. cbn [andb]. ring. }
    destruct (Nat.leb_spec i s) as [H2|H2].
    2:{ destruct (Nat.leb_spec (i + 1) s); [lia|]. rewrite !Bool.andb_false_r. ring. }
    cbn [andb].
    destruct (Nat.leb_spec (s - q) i) as [H3|H3].
    + rewrite (U0 i) by lia.
      replace (i - (s - S q)) with (S (i - (s - q))) by lia.
      rewrite (U1 (i + S q)) by lia. cbn [andb].
      destruct (Nat.leb_spec (s - q) (i + 1)); [|lia]. cbn [andb].
      destruct (Nat.leb_spec (i + 1) s) as [H4|H4].
      * rewrite (U0 (i + 1)), (U1 (i + q + 2)) by lia. rewrite bernstein_SS.
        replace (i + 1 - (s - q)) with (S (i - (s - q))) by lia. field. exact D.
      * replace i with s by lia. rewrite bernstein_SS. replace (s - (s - q)) with q by lia.
        rewrite (bernstein_gt q (S q)) by lia. rewrite !Qcmult_0_r. field. exact D.
    + replace (i - (s - S q)) with 0 by lia.
      destruct (Nat.leb_spec (s - q) (i + 1)); [|lia]. cbn [andb].
      destruct (Nat.leb_spec (i + 1) s) as [H4|H4]; [|lia].
      rewrite (U0 (i + 1)), (U1 (i + q + 2)) by lia. rewrite bernstein_S0. replace (i + 1 - (s - q)) with 0 by lia.
      rewrite Qcmult_0_r. field. exact D.
Qed.

Section Axis.
Variables (p : nat) (kv us : list Qc) (m : list nat).
Hypothesis W : piecewise_bezier p kv us m.
Let N := list_sum m - p - 1.

Lemma sum_first c : c < length m -> list_sum (firstn (S c) m) = p + 1 + first_id m c.
Proof.
  pose proof W as (_ & _ & _ & H2 & H0 & _). intros Hc. unfold first_id. destruct m as [|x m']; cbn in Hc; [lia|].
  cbn in H0. subst x. cbn [firstn tl]. rewrite list_sum_cons. reflexivity.
Qed.
Lemma sum_all : list_sum m = p + 1 + first_id m (length m - 2) + (p + 1).
Proof.
  pose proof W as (_ & _ & _ & H2 & H0 & H1 & _).
  rewrite <- (sum_first (length m - 2)) by lia. replace (S (length m - 2)) with (length m - 1) by lia.
  rewrite <- H1, <- firstn_S_sum by lia. replace (S (length m - 1)) with (length m) by lia. now rewrite firstn_all.
Qed.
Lemma first_id_mono c c' : c <= c' -> c' < length m -> first_id m c <= first_id m c'.
Proof. induction 1; intros; [lia|]. rewrite first_id_S by lia. specialize (IHle ltac:(lia)). lia. Qed.
Lemma first_id_in c : S c < length m -> first_id m c + p < N.
Proof.
  intros Hc. unfold N. rewrite sum_all. pose proof (first_id_mono c (length m - 2) ltac:(lia) ltac:(lia)). lia.
Qed.
Lemma axis_points : ax_n (KnotAxis p kv) = N.
Proof. pose proof W as (-> & _ & L & _). cbn. now rewrite expand_length. Qed.

Lemma knot_at c i : c < length m -> list_sum (firstn c m) <= i < list_sum (firstn (S c) m) -> kn kv i = nth c us 0%Qc.
Proof.
  pose proof W as (-> & _ & L & _). intros Hc Hi. rewrite (kn_nth _ _ 0%Qc).
  - now apply expand_nth.
  - rewrite expand_length by auto. pose proof (firstn_sum_le (S c) m). lia.
Qed.
Lemma us_lt c c' : c < c' -> c' < length us -> (nth c us 0 < nth c' us 0)%Qc.
Proof.
  pose proof W as (_ & SS & _). clear -SS. revert c c'; induction SS as [|x l SS IH F]; intros [|c] [|c'] H H'; cbn in *; try lia.
  - rewrite Forall_forall in F. apply F. apply nth_In. lia.
  - apply IH; lia.
Qed.
(** Knots around the span of patch c. *)
Lemma knot_low c k : S c < length m -> p + first_id m c < k + p -> k <= p + first_id m c -> kn kv k = nth c us 0%Qc.
Proof.
  intros Hc H1 H2. apply knot_at; [lia|]. rewrite sum_first by lia. split; [|lia].
  destruct c as [|c]; [cbn; lia|]. rewrite sum_first by lia.
  rewrite first_id_S in H1 by lia. pose proof W as (_ & _ & _ & _ & _ & _ & M). specialize (M (S c) ltac:(lia)). lia.
Qed.
Lemma knot_span c : S c < length m -> kn kv (p + first_id m c) = nth c us 0%Qc.
Proof.
  intros Hc. apply knot_at; [lia|]. rewrite sum_first by lia. split; [|lia].
  destruct c as [|c]; [cbn; lia|]. rewrite sum_first by lia.
  rewrite first_id_S by lia. pose proof W as (_ & _ & _ & _ & _ & _ & M). specialize (M (S c) ltac:(lia)). lia.
Qed.
Lemma knot_high c k : S c < length m -> p + first_id m c < k -> k <= p + first_id m c + Nat.max p 1 -> kn kv k = nth (S c) us 0%Qc.
Proof.
  intros Hc H1 H2. apply knot_at; [lia|]. rewrite !sum_first by lia. split; [lia|].
  rewrite first_id_S by lia. pose proof W as (_ & _ & _ & _ & _ & _ & M). specialize (M (S c) ltac:(lia)). lia.
Qed.

Lemma axis_wf : knot_vector p N kv.
Proof.
  pose proof W as (E & SS & L & H2 & H0 & H1 & M).
  assert (NL : length kv = N + p + 1).
  { assert (LK : length kv = list_sum m) by (rewrite E; now apply expand_length). pose proof sum_all. unfold N. lia. }
  split; [|split].
  - exact NL.
  - rewrite E. clear - SS L. intros i j Hij Hj. revert m L i j Hij Hj.
    induction SS as [|x l SS IH F]; intros [|k m] L i j Hij Hj; cbn in L; try lia.
    + cbn in Hj. lia.
    + rewrite expand_cons in *. rewrite app_length, repeat_length in Hj.
      destruct (lt_dec j k) as [Hjk|Hjk].
      * rewrite !app_nth1 by (rewrite repeat_length; lia).
        rewrite !(nth_indep (repeat x k) 0%Qc x) by (rewrite repeat_length; lia). rewrite !nth_repeat. qlra.
      * rewrite (app_nth2 _ _ _ (n := j)) by (rewrite repeat_length; lia). rewrite repeat_length.
        destruct (lt_dec i k) as [Hik|Hik].
        -- rewrite app_nth1 by (rewrite repeat_length; lia).
           rewrite (nth_indep (repeat x k) 0%Qc x) by (rewrite repeat_length; lia). rewrite nth_repeat.
           assert (I : In (nth (j - k) (expand_knots l m) 0%Qc) (expand_knots l m)) by (apply nth_In; lia).
           revert I. generalize (nth (j - k) (expand_knots l m) 0%Qc). intros y I.
           unfold expand_knots in I. apply in_concat in I as (r & Hr & Hy). apply in_map_iff in Hr as ((z & k') & <- & Hz).
           cbn in Hy. apply repeat_spec in Hy. subst y. apply in_combine_l in Hz. rewrite Forall_forall in F.
           specialize (F z Hz). qlra.
        -- rewrite (app_nth2 _ _ _ (n := i)) by (rewrite repeat_length; lia). rewrite repeat_length.
           apply IH; lia.
  - assert (E0 : kn kv p = nth 0 us 0%Qc).
    { rewrite <- (knot_span 0) by lia. f_equal. cbn. lia. }
    assert (E1 : kn kv N = nth (length m - 1) us 0%Qc).
    { apply knot_at; [lia|]. replace (length m - 1) with (S (length m - 2)) at 1 by lia.
      rewrite sum_first by lia. replace (S (length m - 1)) with (length m) by lia. rewrite firstn_all.
      unfold N. rewrite sum_all. lia. }
    rewrite E0, E1. apply us_lt; lia.
Qed.
Lemma upper_knot : kn kv N = nth (length m - 1) us 0%Qc.
Proof.
  pose proof W as (_ & _ & _ & H2 & _). apply knot_at; [lia|]. replace (length m - 1) with (S (length m - 2)) at 1 by lia.
  rewrite sum_first by lia. replace (S (length m - 1)) with (length m) by lia. rewrite firstn_all.
  unfold N. rewrite sum_all. lia.
Qed.

Lemma piece_fun c t u i : S c < length m -> (0 <= t)%Qc -> (t < 1)%Qc \/ (t = 1%Qc /\ S (S c) = length m) ->
  u = (nth c us 0 + t * (nth (S c) us 0 - nth c us 0))%Qc ->
  ax_fun (KnotAxis p kv) u i =
  if (first_id m c <=? i) && (i <=? first_id m c + p) then bernstein p (i - first_id m c) t else 0%Qc.
Proof.
  intros Hc Ht0 Ht1 Eu. pose proof W as (_ & _ & L & _).
  set (a := nth c us 0%Qc) in *. set (b := nth (S c) us 0%Qc) in *.
  assert (Hab : (a < b)%Qc) by (apply us_lt; lia).
  assert (Ha : kn kv (p + first_id m c) = a) by now apply knot_span.
  assert (Hb : kn kv (S (p + first_id m c)) = b) by (apply knot_high; lia).
  pose proof (first_id_in c Hc) as HN. pose proof axis_wf as WF.
  assert (Hu : (a <= u)%Qc) by (rewrite Eu; qnra).
  assert (SP : is_span (kn kv) p N u (p + first_id m c)).
  { unfold is_span. rewrite Ha, Hb. refine (conj _ (conj _ (conj Hab (conj Hu _)))); try lia.
    destruct Ht1 as [Ht1|[-> Ec]].
    - left. rewrite Eu. qnra.
    - right. split; [rewrite Eu; ring|]. rewrite upper_knot. unfold b. f_equal. lia. }
  assert (FS : find_span kv p N u = p + first_id m c).
  { apply find_span_unique; auto. destruct SP as (S1 & S2 & S3 & S4 & S5). pose proof (kn_mono kv (proj1 (proj2 WF))) as M.
    split.
    - eapply Qcle_trans; [|exact S4]. apply M. lia.
    - destruct S5 as [S5|[S5 S6]]; [|rewrite S5, S6; qlra].
      assert (kn kv (S (p + first_id m c)) <= kn kv N)%Qc by (apply M; lia). qlra. }
  unfold ax_fun. rewrite axis_points. unfold bspline_basis. rewrite FS.
  rewrite (local_bernstein (kn kv) (p + first_id m c) p a b p i u); auto; try lia.
  - replace (p + first_id m c - p) with (first_id m c) by lia. rewrite (Nat.add_comm p).
    replace ((u - a) / (b - a))%Qc with t; [reflexivity|]. rewrite Eu. field. qlra.
  - intros k H1 H2. apply knot_low; auto.
  - intros k H1 H2. apply knot_high; auto; lia.
Qed.

Lemma bernstein_at_0 q i : bernstein q i 0 = if i =? 0 then 1%Qc else 0%Qc.
Proof.
  destruct i as [|i]; cbn [Nat.eqb].
  - induction q; [apply bernstein_00|]. rewrite bernstein_S0, IHq. ring.
  - revert i; induction q; intros i; [apply bernstein_gt; lia|]. rewrite bernstein_SS, IHq. ring.
Qed.
Lemma bernstein_at_1 q i : bernstein q i 1 = if i =? q then 1%Qc else 0%Qc.
Proof.
  revert i; induction q as [|q IH]; intros [|i]; cbn [Nat.eqb].
  - apply bernstein_00.
  - apply bernstein_gt. lia.
  - rewrite bernstein_S0. ring.
  - rewrite bernstein_SS, IH, IH. ring.
Qed.

Lemma local_fun c t u i : local_parameter p us m c t u -> i < N ->
  ax_fun (KnotAxis p kv) u i =
  if (first_id m c <=? i) && (i <=? first_id m c + p) then bernstein p (i - first_id m c) t else 0%Qc.
Proof.
  intros (Hc & T0 & T1 & T2 & Eu) Hi. pose proof W as (_ & _ & L & _ & _ & _ & M). rewrite L in *.
  destruct (Qc_eq_dec t 1) as [->|Ht].
  2:{ apply piece_fun; auto. left. apply Qcle_lt_or_eq in T1 as [|]; easy. }
  destruct (Nat.eq_dec (S (S c)) (length m)) as [Ec|Ec].
  { apply piece_fun; auto. }
  destruct (T2 eq_refl) as [|E]; [lia|].
  rewrite (piece_fun (S c) 0 u i); try lia; try qlra.
  - rewrite first_id_S, E by lia. rewrite bernstein_at_0, bernstein_at_1.
    destruct (Nat.leb_spec (first_id m c + p) i), (Nat.leb_spec i (first_id m c + p + p)),
      (Nat.leb_spec (first_id m c) i), (Nat.leb_spec i (first_id m c + p)); cbn [andb]; try lia;
      repeat match goal with |- context [?a =? ?b] => destruct (Nat.eqb_spec a b) end; try lia; auto.
Qed.
End Axis.

(** * Values *)
Lemma runs_from_repeat (same : Qc -> Qc -> bool) x k j r : same x x = true ->
  runs_from same x j (repeat x k ++ r) = runs_from same x (j + k) r.
Proof.
  intros H. revert j; induction k as [|k IH]; intros j; cbn [repeat app runs_from]; [now rewrite Nat.add_0_r|].
  rewrite H, IH. f_equal. lia.
Qed.
Lemma near_self eps x : (0 < eps)%Qc -> near eps x x = true.
Proof. intros H. destruct (near_spec eps x x) as [|F]; auto. rewrite qabs_0 in F. easy. Qed.
Lemma run_lengths_expand eps us m : (0 < eps)%Qc -> StronglySorted Qclt us -> apart eps us ->
  length us = length m -> Forall (fun k => 0 < k) m -> run_lengths (near eps) (expand_knots us m) = m.
Proof.
  intros He SS. revert m. destruct us as [|x us]; intros [|[|k] m] Ha L F; cbn in L; try lia; [reflexivity|inversion F; lia|].
  rewrite expand_cons. cbn [repeat app run_lengths]. rewrite runs_from_repeat by now apply near_self.
  replace (1 + k) with (S k) by lia. injection L as L. inversion_clear F as [|? ? _ F'].
  generalize (S k) as j. clear k. revert x m SS Ha L F'.
  induction us as [|y us IH]; intros x [|[|k] m] SS Ha L F j; cbn in L; try lia; [reflexivity|inversion F; lia|].
  rewrite expand_cons. cbn [repeat app runs_from].
  assert (Hxy : near eps x y = false).
  { destruct (near_spec eps x y) as [H|]; auto. exfalso. inversion_clear SS as [|? ? _ G]. inversion_clear G.
    destruct (Ha x y) as [->|H']; [now left|right; now left| |].
    - qlra.
    - qlra. }
  rewrite Hxy. f_equal. rewrite runs_from_repeat by now apply near_self. inversion_clear F. apply IH; auto.
  - now inversion SS.
  - intros a b Ia Ib. apply Ha; now right.
Qed.

Lemma qsum_window (f : nat -> Qc) (g : nat -> Qc) o p n : o + p < n ->
  qsum (map (fun i => Qcmult (if (o <=? i) && (i <=? o + p) then f (i - o) else 0%Qc) (g i)) (seq 0 n)) =
  qsum (map (fun j => Qcmult (f j) (g (o + j))) (seq 0 (p + 1))).
Proof.
  intros H. replace n with (o + ((p + 1) + (n - (o + p + 1)))) by lia.
  rewrite (seq_app o), (seq_app (p + 1)), !map_app, !qsum_app. rewrite !Nat.add_0_l.
  rewrite (qsum_zero _ (seq 0 o)).
  2:{ intros i Hi. apply in_seq in Hi. destruct (Nat.leb_spec o i); [lia|]. cbn [andb]. ring. }
  rewrite (qsum_zero _ (seq (o + (p + 1)) _)).
  2:{ intros i Hi. apply in_seq in Hi. destruct (Nat.leb_spec i (o + p)); [lia|]. rewrite Bool.andb_false_r. ring. }
  replace (seq o (p + 1)) with (map (Nat.add o) (seq 0 (p + 1))).
  - rewrite map_map. rewrite Qcplus_0_l, Qcplus_0_r. apply qsum_ext. intros i Hi. apply in_seq in Hi.
    destruct (Nat.leb_spec o (o + i)); [|lia]. destruct (Nat.leb_spec (o + i) (o + p)); [|lia]. cbn [andb].
    do 2 f_equal. lia.
  - clear. revert o. induction (p + 1) as [|k IH]; intros o; [reflexivity|]. cbn [seq map]. rewrite Nat.add_0_r. f_equal.
    rewrite <- (IH (S o)), <- seq_shift, map_map. apply map_ext. intros; lia.
Qed.

Definition firsts (um : list (list Qc * list nat)) (c : list nat) : list nat :=
  map (fun xc => first_id (snd (fst xc)) (snd xc)) (combine um c).

Lemma piece_tensor axes um cs ts us f :
  bezier_form axes um -> patch_parameter axes um cs ts us ->
  tensor (sp_basis (map (fun a => BezierAxis (ax_degree a)) axes) ts) (fun j => f (plus2 (firsts um cs) j)) =
  tensor (sp_basis axes us) f.
Proof.
  intros BF PP. revert f BF. induction PP as [|a axes x um c cs t ts u us LP PP IH]; intros f BF; [reflexivity|].
  inversion BF as [|? ? ? ? (p & kv & Ea & W) BF']; subst. cbn [ax_degree] in LP.
  unfold sp_basis in *. cbn [map combine fst snd tensor ax_degree ax_n] in *.
  change (length kv - p - 1) with (ax_n (KnotAxis p kv)).
  pose proof LP as (Hc & _). pose proof W as (_ & _ & L & _). rewrite L in Hc.
  symmetry. rewrite (qsum_ext _ (fun i => Qcmult (if (first_id (snd x) c <=? i) && (i <=? first_id (snd x) c + p)
      then bernstein p (i - first_id (snd x) c) t else 0%Qc)
      (tensor (map (fun au => (ax_n (fst au), ax_fun (fst au) (snd au))) (combine axes us)) (fun ix => f (i :: ix)))) (seq 0 _)).
  2:{ intros i Hi. apply in_seq in Hi. rewrite (axis_points p kv _ _ W) in Hi.
      rewrite (local_fun p kv _ _ W c t u i LP) by lia. reflexivity. }
  rewrite (qsum_window (fun j => bernstein p j t)
    (fun i => tensor (map (fun au => (ax_n (fst au), ax_fun (fst au) (snd au))) (combine axes us)) (fun ix => f (i :: ix)))).
  2:{ rewrite (axis_points p kv _ _ W). apply first_id_in with (us := fst x) (kv := kv); auto. }
  apply qsum_ext. intros j Hj. cbn [ax_fun]. f_equal.
  rewrite <- (IH (fun ix => f (first_id (snd x) c + j :: ix)) BF'). reflexivity.
Qed.

Lemma patch_lengths axes um cs ts us : patch_parameter axes um cs ts us ->
  length um = length axes /\ length cs = length axes /\ length ts = length axes /\ length us = length axes.
Proof. induction 1; cbn; [easy|]. lia. Qed.
Lemma patch_below axes um cs ts us : patch_parameter axes um cs ts us -> below (patch_counts um) cs.
Proof.
  induction 1 as [|a axes x um c cs t ts u us (Hc & _) PP IH]; constructor; auto. cbn. lia.
Qed.
Lemma form_multiplicities eps axes um : (0 < eps)%Qc -> bezier_form axes um -> Forall (fun x => apart eps (fst x)) um ->
  map (axis_multiplicities eps) axes = map snd um.
Proof.
  intros He. induction 1 as [|a x axes um (p & kv & -> & W) BF IH]; intros F; [reflexivity|]. inversion_clear F.
  cbn [map axis_multiplicities]. f_equal; auto. destruct W as (-> & SS & L & _ & _ & _ & M).
  apply run_lengths_expand; auto. apply Forall_forall. intros k Hk.
  destruct (In_nth _ _ 0 Hk) as (i & Hi & <-). now apply M.
Qed.
Lemma form_counts axes um : bezier_form axes um -> patches_per_axis (map snd um) = patch_counts um.
Proof.
  induction 1 as [|a x axes um (p & kv & -> & W) BF IH]; [reflexivity|]. cbn. f_equal; auto.
  destruct W as (_ & _ & L & _). lia.
Qed.
Lemma form_points axes um : bezier_form axes um -> points_per_axis (map snd um) (map ax_degree axes) = map ax_n axes.
Proof.
  induction 1 as [|a x axes um (p & kv & -> & W) BF IH]; [reflexivity|]. cbn [map combine points_per_axis fst snd ax_degree].
  change (points_per_axis (snd x :: map snd um) (p :: map ax_degree axes)) with
    ((list_sum (snd x) - p - 1) :: points_per_axis (map snd um) (map ax_degree axes)).
  f_equal; auto. symmetry. exact (axis_points p kv _ _ W).
Qed.
Lemma form_valid axes um cs j : bezier_form axes um -> below (patch_counts um) cs ->
  below (map (fun d => d + 1) (map ax_degree axes)) j -> valid_digits (map ax_n axes) (plus2 (firsts um cs) j).
Proof.
  intros BF. revert cs j. induction BF as [|a x axes um (p & kv & -> & W) BF IH]; intros cs j Hc Hj.
  - inversion Hc. inversion Hj. constructor.
  - inversion_clear Hc as [|? c ? cs' H1 H2]. inversion_clear Hj as [|? i ? j' H3 H4].
    unfold firsts, plus2. cbn [map combine fst snd]. constructor; [|apply IH; auto].
    rewrite (axis_points p kv _ _ W). cbn [ax_degree] in H3. cbn in H1. pose proof W as (_ & _ & L & _).
    pose proof (first_id_in p kv _ _ W c ltac:(lia)). lia.
Qed.

Lemma below_exists ns g : g < prodn ns -> below ns (digits ns g) /\ flat_id ns (digits ns g) = g.
Proof.
  intros H. split.
  - apply digits_valid. apply prodn_pos_inv. lia.
  - rewrite flat_id_undigits by apply length_digits. now apply undigits_digits.
Qed.

Lemma combine_map_fst {A B C} (f : A -> B) (l : list A) (l' : list C) :
  combine (map f l) l' = map (fun xy => (f (fst xy), snd xy)) (combine l l').
Proof. revert l'; induction l as [|x l IH]; intros [|y l']; cbn; auto. now rewrite IH. Qed.

Lemma unweighted_id p w : w <> 0%Qc -> unweighted p w = p.
Proof.
  intros H. unfold unweighted. rewrite map_map. rewrite <- (map_id p) at 2. apply map_ext. intros x. field. exact H.
Qed.
Lemma unweighted_rows cps ws : length cps = length ws -> Forall (fun w => w <> 0%Qc) ws ->
  map (fun pw => unweighted (fst pw) (snd pw)) (combine cps ws) = cps.
Proof.
  revert ws; induction cps as [|x cps IH]; intros [|w ws] L F; cbn [map combine fst snd length] in *; try lia; auto. inversion_clear F.
  rewrite unweighted_id by auto. f_equal. apply IH; auto.
Qed.

Lemma pieces_spec eps s um :
  (0 < eps)%Qc -> sp_wf s -> bezier_form (sp_axes s) um -> Forall (fun x => apart eps (fst x)) um ->
  match sp_weights s with None => True | Some ws => Forall (fun w => w <> 0%Qc) ws end ->
  exists bs, bezier_pieces eps s = Some bs /\ length bs = fold_right Nat.mul 1 (patch_counts um) /\
  forall c, below (patch_counts um) c ->
  exists b, nth_error bs (flat_id (patch_counts um) c) = Some b /\
    sp_axes b = map (fun a => BezierAxis (ax_degree a)) (sp_axes s) /\ sp_wf b /\
    (sp_weights b = None <-> sp_weights s = None) /\
    forall ts us d, patch_parameter (sp_axes s) um c ts us -> sp_value b ts d = sp_value s us d.
Proof.
  intros He (WA & WC & WW) BF Hap Hw.
  unfold bezier_pieces. rewrite (form_multiplicities eps _ um) by auto.
  set (ids := bezier_patch_ids (map snd um) (map ax_degree (sp_axes s))).
  pose proof (Forall2_len _ _ _ BF) as LU.
  destruct (patch_ids_spec (map snd um) (map ax_degree (sp_axes s)) ltac:(rewrite !map_length; lia)) as (LI & HI).
  fold ids in LI, HI. rewrite (form_counts _ _ BF) in LI, HI. rewrite (form_points _ _ BF) in HI.
  set (dd := map (fun d => d + 1) (map ax_degree (sp_axes s))) in *.
  assert (DD : dd = map ax_n (map (fun a => BezierAxis (ax_degree a)) (sp_axes s))).
  { unfold dd. rewrite !map_map. now apply map_ext. }
  assert (PC : forall c, below (patch_counts um) c -> exists pids b,
     nth_error ids (flat_id (patch_counts um) c) = Some pids /\ piece s pids = Some b /\
     sp_axes b = map (fun a => BezierAxis (ax_degree a)) (sp_axes s) /\ sp_wf b /\
     (sp_weights b = None <-> sp_weights s = None) /\
     forall ts us d, patch_parameter (sp_axes s) um c ts us -> sp_value b ts d = sp_value s us d).
  { intros c Hc. destruct (HI c Hc) as (pids & E & L & HJ). exists pids.
    assert (LB : length c = length um) by (apply BaseRadix.valid_length in Hc; unfold patch_counts in Hc; now rewrite map_length in Hc).
    assert (PI : forall j, patch_index (map snd um) c j = plus2 (firsts um c) j).
    { intros j. rewrite patch_index_plus. unfold firsts. now rewrite combine_map_fst, map_map. }
    assert (SG : forall g, g < prodn dd -> nth g pids 0 = flat_id (map ax_n (sp_axes s)) (plus2 (firsts um c) (digits dd g))).
    { intros g Hg. destruct (below_exists dd g Hg) as (B1 & B2). specialize (HJ _ B1). rewrite B2 in HJ.
      rewrite PI in HJ. now apply nth_error_nth with (d := 0) in HJ. }
    assert (L' : length pids = prodn dd) by (rewrite L; apply fold_right_mul_prodn).
    assert (RG : forall i, In i pids -> i < prodn (sp_res s)).
    { intros i Hi. destruct (In_nth _ _ 0 Hi) as (g & Hg & <-). rewrite L' in Hg. rewrite SG by auto.
      destruct (below_exists dd g Hg) as (B1 & B2).
      pose proof (form_valid _ _ c _ BF Hc B1) as V. rewrite flat_id_undigits by now apply BaseRadix.valid_length.
      now apply undigits_lt. }
    destruct (pick_reindexed (sp_cps s) pids) as (cps & EC & RC).
    { intros i Hi. apply RG in Hi. rewrite WC. now rewrite fold_right_mul_prodn. }
    assert (FU : forall ts us, patch_parameter (sp_axes s) um c ts us -> forall f : nat -> Qc,
       functional (map (fun a => BezierAxis (ax_degree a)) (sp_axes s)) ts (fun g => f (nth g pids 0)) =
       functional (sp_axes s) us f).
    { intros ts us PP f. unfold functional.
      rewrite <- (piece_tensor _ _ _ _ _ (fun ix => f (flat_id (map ax_n (sp_axes s)) ix)) BF PP).
      destruct (patch_lengths _ _ _ _ _ PP) as (L1 & L2 & L3 & L4).
      apply tensor_ext_c. intros ix V. rewrite sp_basis_fst in V by (rewrite map_length; lia). rewrite <- DD in *.
      f_equal. assert (LX : length ix = length dd) by now apply BaseRadix.valid_length.
      rewrite (flat_id_undigits dd) by auto. rewrite SG by now apply undigits_lt. now rewrite digits_undigits. }
    assert (LEN : forall ts us, patch_parameter (sp_axes s) um c ts us ->
       length ts = length (map (fun a => BezierAxis (ax_degree a)) (sp_axes s))).
    { intros ts us PP. destruct (patch_lengths _ _ _ _ _ PP) as (L1 & L2 & L3 & L4). rewrite map_length. lia. }
    assert (WB : Forall ax_wf (map (fun a => BezierAxis (ax_degree a)) (sp_axes s))).
    { apply Forall_map. apply Forall_forall. intros; exact I. }
    unfold piece. rewrite EC. destruct (sp_weights s) as [ws|] eqn:Es.
    - destruct (pick_reindexed ws pids) as (ws' & EW & RW).
      { intros i Hi. apply RG in Hi. rewrite WW. now rewrite fold_right_mul_prodn. }
      rewrite EW.
      assert (NZ : Forall (fun w => w <> 0%Qc) ws').
      { apply Forall_forall. intros w Hin. destruct (In_nth _ _ 0%Qc Hin) as (g & Hg & <-). destruct RW as (RL & RW').
        rewrite RL in Hg. rewrite (reindexed_nth _ _ _ _ g 0%Qc (conj RL RW') Hg).
        rewrite Forall_forall in Hw. apply Hw. apply nth_In. rewrite WW, fold_right_mul_prodn. apply RG. apply nth_In. lia. }
      rewrite unweighted_rows; auto. 2:{ destruct RC as [-> _], RW as [-> _]. reflexivity. }
      eexists. refine (conj E (conj eq_refl (conj eq_refl (conj _ (conj _ _))))).
      + unfold sp_wf, sp_res. cbn [sp_axes sp_cps sp_weights]. rewrite <- DD. destruct RC as [-> _], RW as [-> _].
        repeat split; auto.
      + split; discriminate.
      + intros ts us d PP. apply value_transfer with (sigma := fun g => nth g pids 0); unfold sp_res; cbn [sp_axes sp_cps sp_weights].
        * now apply (LEN ts us).
        * rewrite <- DD, <- L'. exact RC.
        * rewrite Es, <- DD, <- L'. exact RW.
        * intros f. now apply FU.
    - eexists. refine (conj E (conj eq_refl (conj eq_refl (conj _ (conj _ _))))).
      + unfold sp_wf, sp_res. cbn [sp_axes sp_cps sp_weights]. rewrite <- DD. destruct RC as [-> _].
        repeat split; auto.
      + easy.
      + intros ts us d PP. apply value_transfer with (sigma := fun g => nth g pids 0); unfold sp_res; cbn [sp_axes sp_cps sp_weights].
        * now apply (LEN ts us).
        * rewrite <- DD, <- L'. exact RC.
        * now rewrite Es.
        * intros f. now apply FU. }
  assert (AS : exists bs, all_some (map (piece s) ids) = Some bs /\ length bs = length ids /\
     forall k pids, nth_error ids k = Some pids -> nth_error bs k = piece s pids).
  { assert (G : forall pids, In pids ids -> exists b, piece s pids = Some b).
    { intros pids Hi. destruct (In_nth_error _ _ Hi) as (k & Hk).
      assert (Hk' : k < prodn (patch_counts um)).
      { rewrite <- fold_right_mul_prodn, <- LI. apply nth_error_Some. now rewrite Hk. }
      destruct (below_exists _ _ Hk') as (B1 & B2). destruct (PC _ B1) as (pids' & b & E1 & E2 & _).
      rewrite B2, Hk in E1. injection E1 as <-. eauto. }
    clear -G. induction ids as [|x l IH].
    - exists []. split; [reflexivity|]. split; [reflexivity|]. intros [|k] pids; discriminate.
    - destruct (G x ltac:(now left)) as (b & Eb). destruct IH as (bs & E & L & H). { intros; apply G; now right. }
      exists (b :: bs). cbn [map all_some]. rewrite Eb, E. split; [reflexivity|]. split; [cbn; lia|].
      intros [|k] pids Hk; cbn in *; [injection Hk as <-; now symmetry|]. now apply H. }
  destruct AS as (bs & E & L & H). exists bs. split; [exact E|]. split; [lia|].
  intros c Hc. destruct (PC c Hc) as (pids & b & E1 & E2 & R). exists b. split; [|exact R].
  rewrite (H _ _ E1). exact E2.
Qed.
