(** Proofs for extracted parts of splines: the chosen control points and the new spline. *)
From Coq Require Import List Arith ZArith Bool QArith Qcanon Lia Sorted.
From Verif Require Import Base BaseRadix BaseQc S_Grid P_Grid S_Spline S_Value P_Spline P_Value M_Numpy M_Grid M_Core M_Extract P_Extract M_Files M_Create S_Core P_Core S_Files P_Files S_Create P_Create S_SubSpline M_SubSpline P_SubSpline.
Import ListNotations.
Local Open Scope list_scope.
Local Open Scope nat_scope.

(** * Chosen ids *)
Lemma resolve_all_but r2 ix n P : index_positions n ix = Some P -> forall r1 o,
  resolve (r1 ++ n :: r2) (map (fun j => if j =? o + length r1 then ix else ISlice None None None) (seq o (length r1 + S (length r2)))) =
  Some (map (seq 0) r1 ++ P :: map (seq 0) r2).
Proof.
  intros HP. assert (forall r, index_positions r (ISlice None None None) = Some (seq 0 r)) as A.
  { intros r. unfold index_positions, slice_positions. cbn [Z.eqb Z.ltb Z.compare]. f_equal.
    replace (Z.to_nat _) with r by (rewrite Z.div_1_r; lia). rewrite <- (map_id (seq 0 r)) at 2. apply map_ext. intros. lia. }
  induction r1 as [|r r1 IH]; intros o.
  - cbn [length app Nat.add seq map resolve]. rewrite Nat.add_0_r, Nat.eqb_refl, HP.
    assert (forall r2 q, o < q -> resolve r2 (map (fun j => if j =? o then ix else ISlice None None None) (seq q (length r2))) = Some (map (seq 0) r2)) as B.
    { clear - A. induction r2 as [|r r2 IH]; intros q Hq; cbn [length seq map resolve]; auto.
      destruct (Nat.eqb_spec q o); [lia|]. rewrite A, IH by lia. reflexivity. }
    rewrite B by lia. reflexivity.
  - cbn [length app Nat.add seq map resolve]. destruct (Nat.eqb_spec o (o + S (length r1))); [lia|]. rewrite A.
    replace (o + S (length r1)) with (S o + length r1) by lia. rewrite IH. reflexivity.
Qed.

Lemma nth_image {A} (f : nat -> A) n j d : j < n -> nth j (map f (seq 0 n)) d = f j.
Proof.
  intros H. rewrite (nth_indep _ d (f 0)) by (rewrite map_length, seq_length; auto). rewrite map_nth, seq_nth by auto. reflexivity.
Qed.
Lemma digit_lt r d j : valid_digits r d -> j < length r -> nth j d 0 < nth j r 0.
Proof. intros V. revert j. induction V; intros [|j] Hj; cbn in *; try lia. apply IHV. lia. Qed.
Lemma nth_of_seq d r : d < r -> nth d (seq 0 r) 0 = d.
Proof. intros H. now rewrite seq_nth. Qed.

Lemma sub_ids r1 n r2 ix P : index_positions n ix = Some P -> Forall (fun r => 0 < r) r1 -> Forall (fun r => 0 < r) r2 -> 0 < length P -> Forall (fun i => i < n) P ->
  exists ids, multi_index_getitem (r1 ++ n :: r2) (map (fun j => if j =? length r1 then ix else ISlice None None None) (seq 0 (length r1 + S (length r2)))) = Some ids /\
    length ids = prodn (r1 ++ length P :: r2) /\ (forall i, In i ids -> i < prodn (r1 ++ n :: r2)) /\
    forall d1 i d2, valid_digits r1 d1 -> i < length P -> valid_digits r2 d2 ->
      nth (undigits (r1 ++ length P :: r2) (d1 ++ i :: d2)) ids 0 = undigits (r1 ++ n :: r2) (d1 ++ nth i P 0 :: d2).
Proof.
  intros HP R1 R2 HL HB. pose proof (resolve_all_but r2 ix n P HP r1 0) as E. cbn [Nat.add] in E.
  destruct (multi_index_subscript _ _ _ E) as (ids & Ei & Li & Hn). set (pos := map (seq 0) r1 ++ P :: map (seq 0) r2) in *.
  assert (map (@length nat) pos = r1 ++ length P :: r2) as Ep.
  { assert (forall l, map (fun x => length (seq 0 x)) l = l) as Id by (induction l; cbn [map]; [auto|]; rewrite seq_length; congruence).
    unfold pos. rewrite map_app. cbn [map]. now rewrite !map_map, !Id. }
  rewrite Ep in *. change (fold_right Nat.mul 1 (r1 ++ length P :: r2)) with (prodn (r1 ++ length P :: r2)) in Li.
  assert (forall d1 i d2, valid_digits r1 d1 -> i < length P -> valid_digits r2 d2 ->
    nth (undigits (r1 ++ length P :: r2) (d1 ++ i :: d2)) ids 0 = undigits (r1 ++ n :: r2) (d1 ++ nth i P 0 :: d2)) as G.
  { intros d1 i d2 V1 Hi V2. assert (valid_digits (r1 ++ length P :: r2) (d1 ++ i :: d2)) as V by (apply Forall2_app; auto; constructor; auto).
    rewrite Hn by (rewrite Li; now apply undigits_lt).
    rewrite flat_id_undigits by (rewrite map_length, seq_length; reflexivity). f_equal.
    pose proof (Forall2_len _ _ _ V1) as L1. pose proof (Forall2_len _ _ _ V2) as L2.
    apply (nth_ext _ _ 0 0); [rewrite map_length, seq_length, !app_length; cbn; lia|].
    intros j Hj. rewrite map_length, seq_length in Hj.
    rewrite nth_image by auto.
    rewrite <- (axis_position_digits _ _ j 0) by (rewrite app_length in *; cbn in *; lia). rewrite digits_undigits by auto.
    unfold pos. destruct (lt_eq_lt_dec j (length r1)) as [[Hlt|Heq]|Hgt].
    - rewrite !(app_nth1 d1) by lia. rewrite app_nth1 by (rewrite map_length; lia).
      rewrite (nth_indep _ [] (seq 0 0)) by (rewrite map_length; lia). rewrite map_nth. apply nth_of_seq.
      now apply digit_lt.
    - subst j. rewrite L1. rewrite !(app_nth2 d1) by lia. rewrite app_nth2 by (rewrite map_length; lia). rewrite map_length, L1, Nat.sub_diag. reflexivity.
    - rewrite app_length in Hj. cbn [length] in Hj.
      rewrite !(app_nth2 d1) by lia. rewrite app_nth2 by (rewrite map_length; lia). rewrite map_length, L1.
      destruct (j - length d1) as [|m] eqn:Em; [lia|]. cbn [nth].
      rewrite (nth_indep _ [] (seq 0 0)) by (rewrite map_length; lia). rewrite map_nth. apply nth_of_seq.
      apply digit_lt; auto. lia. }
  exists ids. split; [exact Ei|]. split; [exact Li|]. split; [|exact G].
  intros x Hx. apply (In_nth _ _ 0) in Hx as (g & Hg & <-). rewrite Li in Hg.
  rewrite <- (undigits_digits _ _ Hg). assert (Forall (fun r => 0 < r) (r1 ++ length P :: r2)) as Fp by (apply Forall_app; auto).
  pose proof (digits_valid _ g Fp) as V. apply Forall2_app_inv_l in V as (d1 & d2 & V1 & V2 & ->). inversion V2 as [|? i ? d3 Hi V3]; subst.
  rewrite G by auto. apply undigits_lt. apply Forall2_app; auto. constructor; auto.
  rewrite Forall_forall in HB. apply HB, nth_In, Hi.
Qed.

Lemma int_positions n i : i < n -> index_positions n (IInt (Z.of_nat i)) = Some [i].
Proof.
  intros H. cbn [index_positions]. destruct (Z.ltb_spec (Z.of_nat i) 0); [lia|].
  destruct (Z.leb_spec 0 (Z.of_nat i)), (Z.ltb_spec (Z.of_nat i) (Z.of_nat n)); try lia. cbn [andb]. now rewrite Nat2Z.id.
Qed.
Lemma range_positions n o e : o <= e -> e <= n -> slice_positions n (Some (Z.of_nat o)) (Some (Z.of_nat e)) None = Some (seq o (e - o)).
Proof.
  intros H H'. unfold slice_positions. cbn [Z.eqb Z.ltb Z.compare].
  destruct (Z.ltb_spec (Z.of_nat o) 0), (Z.ltb_spec (Z.of_nat e) 0); try lia. f_equal.
  rewrite Z.div_1_r. replace (Z.to_nat _) with (e - o) by lia.
  replace (seq o (e - o)) with (map (fun k => o + k) (seq 0 (e - o))) by (rewrite seq_shift_add; f_equal; lia).
  apply map_ext. intros. lia.
Qed.
Lemma slice_window l1 K l2 : slice (l1 ++ K ++ l2) (Z.of_nat (length l1)) (Z.of_nat (length l1 + length K)) = K.
Proof.
  unfold slice. rewrite range_positions by (rewrite ?app_length; lia). replace (length l1 + length K - length l1) with (length K) by lia.
  replace (seq (length l1) (length K)) with (map (fun k => length l1 + k) (seq 0 (length K))) by (rewrite seq_shift_add; f_equal; lia).
  rewrite map_map. apply (nth_ext _ _ 0%Qc 0%Qc); [now rewrite map_length, seq_length|]. intros j Hj. rewrite map_length, seq_length in Hj.
  rewrite nth_image by auto.
  rewrite app_nth2 by lia. replace (length l1 + j - length l1) with j by lia. now apply app_nth1.
Qed.

(** * The new spline *)
Definition of_kind (knots : bool) (limit dim : nat) (a : paxis) : Prop :=
  match a with
  | KnotAxis p kv => knots = true /\ knots_fit (Z.of_nat p) kv /\ Forall (fun x => (qc (-1) 1 <= x)%Qc) kv
  | BezierAxis _ => knots = false /\ dim <= limit
  end.
Lemma build limit dim s axs cps ws : axs <> [] -> length axs <= limit -> 0 < dim -> Forall (of_kind (has_kvs s) limit dim) axs ->
  Forall (fun P => length P = dim) cps -> length cps = prodn (map ax_n axs) -> (sp_weights s = None <-> ws = None) ->
  match ws with Some w => length w = length cps | None => True end ->
  make limit s (Inputs (Some (map (fun a => Z.of_nat (ax_degree a)) axs)) (if has_kvs s then Some (map ax_kv axs) else None) (Some cps) ws) =
  Some (Spl axs cps ws) /\ storable limit (Spl axs cps ws).
Proof.
  intros N L Hd K R C Kw Lw. set (degs := map _ axs). set (kvs := if has_kvs s then Some (map ax_kv axs) else None).
  assert (complete (name_of s) (Inputs (Some degs) kvs (Some cps) ws) degs kvs cps ws) as Cm.
  { unfold complete, name_of, kvs. cbn [in_deg in_cps in_kvs in_ws]. split; auto. split; auto.
    destruct (has_kvs s), (sp_weights s), ws; intuition (discriminate || congruence). }
  assert (make_axes degs kvs = axs) as Ax.
  { unfold degs, kvs. clear - K. destruct (has_kvs s); induction K as [|[p|p kv] axs H K IH]; cbn [map make_axes ax_degree ax_kv hd tl]; auto;
      rewrite ?IH, ?Nat2Z.id; auto; destruct H; discriminate. }
  assert (consistent degs kvs cps ws) as Cs.
  { unfold consistent. split; [intros E; apply N; unfold degs in E; now apply map_eq_nil in E|]. split; [|split; [now exists dim|split; [|exact Lw]]].
    - unfold kvs, degs. clear - K. destruct (has_kvs s); induction K as [|[p|p kv] axs H K IH]; cbn [map ax_degree ax_kv]; constructor; auto; try lia; destruct H as [H H']; try discriminate; apply H'.
    - rewrite C. unfold kvs, degs. clear - K. destruct (has_kvs s); induction K as [|[p|p kv] axs H K IH]; cbn [map ax_degree ax_kv wanted prodn fold_right ax_n]; auto; try (destruct H; discriminate).
      + rewrite <- IH. destruct H as (_ & (_ & _ & H) & _). change (fold_right Nat.mul 1 (map ax_n axs)) with (prodn (map ax_n axs)). rewrite Nat2Z.inj_mul. f_equal. lia.
      + rewrite <- IH. change (fold_right Nat.mul 1 (map ax_n axs)) with (prodn (map ax_n axs)). lia. }
  assert (supported limit degs kvs cps) as Sp.
  { split; [unfold degs; now rewrite map_length|]. unfold kvs. destruct (has_kvs s).
    - clear - K. apply Forall_map. eapply Forall_impl; [|exact K]. intros [p|p kv] H; [constructor|apply H].
    - destruct K as [|[p|p kv] axs H K]; [easy| |destruct H; discriminate]. eapply Forall_impl; [|exact R]. cbn. intros P ->. apply H. }
  split.
  - rewrite (make_accepts limit s _ _ _ _ _ Cm Cs Sp). now rewrite Ax.
  - exists degs, kvs, cps, ws. split; [exact Cs|]. split; [exact Sp|]. rewrite <- Ax. now apply new_core_properties.
Qed.
Lemma kinds limit dim s : storable limit s -> Forall (fun P => length P = dim) (sp_cps s) -> Forall (of_kind (has_kvs s) limit dim) (sp_axes s) /\ length (sp_axes s) <= limit /\ sp_axes s <> [].
Proof.
  intros St R. pose proof (storable_points limit s St) as NP. destruct (storable_core limit s St) as (cps & ws & E1 & E2 & (N & K & _) & (L & Sp) & Ax).
  unfold core_degrees in *. rewrite map_length in L. split; [|split; auto; intros E; apply N; now rewrite E].
  destruct (has_kvs s).
  - assert (forall axs, Forall2 knots_fit (map (fun a => Z.of_nat (ax_degree a)) axs) (map ax_kv axs) -> Forall (Forall (fun k => (qc (-1) 1 <= k)%Qc)) (map ax_kv axs) ->
      make_axes (map (fun a => Z.of_nat (ax_degree a)) axs) (Some (map ax_kv axs)) = axs -> Forall (of_kind true limit dim) axs) as G.
    { clear. induction axs as [|[p|p kv] axs IH]; cbn [map ax_degree ax_kv make_axes hd tl]; intros F1 F2 E; constructor; inversion F1; inversion F2; subst; try (injection E as E'); try discriminate; cbn; auto. }
    apply G; auto.
  - assert (dim <= limit) as D. { subst cps. destruct (sp_cps s) as [|P l]; [easy|]. inversion R; inversion Sp; subst. auto. }
    assert (forall axs, make_axes (map (fun a => Z.of_nat (ax_degree a)) axs) None = axs -> Forall (of_kind false limit dim) axs) as G.
    { clear - D. induction axs as [|[p|p kv] axs IH]; cbn [map ax_degree make_axes]; intros E; constructor; try discriminate; cbn; auto; injection E; auto. }
    now apply G.
Qed.
