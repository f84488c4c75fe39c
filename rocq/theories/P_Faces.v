(** Proofs about meshes of splines. *)
From Coq Require Import List Arith ZArith Bool QArith Qcanon Lia.
From Verif Require Import Base BaseRadix BaseQc S_Grid P_Grid S_Spline S_Value P_Spline P_Value M_Grid M_Extract P_Extract M_Faces S_Faces.
Import ListNotations.
Local Open Scope list_scope.
Local Open Scope nat_scope.

Lemma plus_shifted c o : plus_ix c o = shifted c o.
Proof. revert o. induction c as [|x c IH]; intros [|y o]; cbn; auto. f_equal. apply IH. Qed.
Lemma cell_digits res c : cell res c <-> valid_digits (map pred res) c.
Proof.
  unfold cell, valid_digits. revert c. induction res as [|r res IH]; intros c; split; intros H; inversion H; subst; cbn [map]; constructor; try lia; now apply IH.
Qed.
Definition unit_offset (n : nat) (o : list nat) : Prop := length o = n /\ Forall (fun x => x <= 1) o.
Lemma shifted_valid res c o : cell res c -> unit_offset (length res) o -> valid_digits res (shifted c o).
Proof.
  intros H. revert o. induction H as [|r i res c Hi H IH]; intros [|y o] (L & F); cbn in L; try easy; cbn [shifted]; constructor.
  - inversion F; lia.
  - apply IH. inversion F. split; auto.
Qed.
Lemma shifted_zero c n : length c = n -> shifted c (repeat 0 n) = c.
Proof. revert n. induction c as [|x c IH]; intros [|n] H; cbn in *; try easy. rewrite IH by lia. f_equal. lia. Qed.
Lemma nth_f_indices res v : v < prodn res -> nth v (f_indices res) [] = digits res v.
Proof. intros H. apply nth_error_nth. unfold f_indices. rewrite nth_error_map, (nth_error_nth' (seq 0 (prodn res)) 0) by (now rewrite seq_length). rewrite seq_nth by auto. reflexivity. Qed.
Lemma cell_length res c : cell res c -> length c = length res.
Proof. intros H. induction H; cbn; lia. Qed.

(** The documented connectivity is the list of cells. *)
Lemma connect_placed corners res : Forall (unit_offset (length res)) corners ->
  placed (f_indices res) (connect corners res) = map (fun c => map (shifted c) corners) (f_indices (map pred res)).
Proof.
  intros F. unfold placed, connect. rewrite map_map. apply map_ext_in. intros c Hc. apply in_f_indices, cell_digits in Hc.
  rewrite map_map. apply map_ext_in. intros o Ho. rewrite Forall_forall in F. specialize (F o Ho). rewrite plus_shifted.
  pose proof (shifted_valid res c o Hc F) as V. rewrite nth_f_indices by now apply undigits_lt. now apply digits_undigits.
Qed.
Lemma connect_bound corners res f v : Forall (unit_offset (length res)) corners -> In f (connect corners res) -> In v f -> v < prodn res.
Proof.
  intros F Hf Hv. unfold connect in Hf. apply in_map_iff in Hf as (c & <- & Hc). apply in_f_indices, cell_digits in Hc. apply in_map_iff in Hv as (o & <- & Ho).
  rewrite Forall_forall in F. rewrite plus_shifted. apply undigits_lt, shifted_valid; auto.
Qed.
Lemma connect_in corners res f : Forall (unit_offset (length res)) corners -> 
  (In f (connect corners res) <-> exists c, cell res c /\ f = map (fun o => flat_id res (shifted c o)) corners).
Proof.
  intros F. rewrite Forall_forall in F. unfold connect. rewrite in_map_iff. split.
  - intros (c & <- & Hc). apply in_f_indices, cell_digits in Hc. exists c. split; auto. apply map_ext_in. intros o Ho. rewrite plus_shifted.
    symmetry. apply flat_id_undigits. apply BaseRadix.valid_length. apply shifted_valid; auto.
  - intros (c & Hc & ->). exists c. split; [|now apply in_f_indices, cell_digits]. apply map_ext_in. intros o Ho. rewrite plus_shifted.
    symmetry. apply flat_id_undigits. apply BaseRadix.valid_length. apply shifted_valid; auto.
Qed.
Lemma connect_nodup corners res : Forall (unit_offset (length res)) corners -> hd_error corners = Some (repeat 0 (length res)) -> NoDup (connect corners res).
Proof.
  intros F H. destruct corners as [|o corners]; [easy|]. injection H as ->. unfold connect. inversion F as [|? ? U F']; subst.
  assert (forall l, (forall c, In c l -> cell res c) -> NoDup l -> NoDup (map (fun c => map (fun o => undigits res (plus_ix c o)) (repeat 0 (length res) :: corners)) l)) as G.
  { induction l as [|c l IH]; intros Hl N; cbn [map]; constructor; inversion N as [|? ? Nc N']; subst.
    - intros I. apply in_map_iff in I as (c' & E & I). injection E as E _. rewrite !plus_shifted in E.
      assert (cell res c) as H1 by (apply Hl; now left). assert (cell res c') as H2 by (apply Hl; now right).
      rewrite !shifted_zero in E by now apply cell_length. apply undigits_inj in E; [subst; easy| |].
      + rewrite <- (shifted_zero c' (length res)) by now apply cell_length. now apply shifted_valid.
      + rewrite <- (shifted_zero c (length res)) by now apply cell_length. now apply shifted_valid.
    - apply IH; auto. intros x Hx. apply Hl. now right. }
  apply G; [|apply NoDup_f_indices]. intros c Hc. now apply cell_digits, in_f_indices.
Qed.

(** ** Samples *)
Lemma parameters_length axes : forall res ix, length axes = length res -> length ix = length res -> length (parameters axes res ix) = length res.
Proof. induction axes as [|a axes IH]; intros [|r res] [|i ix] H H'; cbn in *; try lia. now rewrite IH by lia. Qed.
Lemma parameters_nth axes : forall res ix k, length axes = length res -> length ix = length res -> k < length res ->
  nth k (parameters axes res ix) 0%Qc = (nth k (map ax_lower axes) 0 + (nth k (map ax_upper axes) 0 - nth k (map ax_lower axes) 0) / inj (nth k res 0%nat - 1) * inj (nth k ix 0%nat))%Qc.
Proof. induction axes as [|a axes IH]; intros [|r res] [|i ix] [|k] H H' K; cbn in *; try lia; auto. apply IH; lia. Qed.
Lemma id_to_point_length es : forall rs t, length es = length rs -> length (id_to_point rs es t) = length rs.
Proof. induction es as [|e es IH]; intros [|r rs] t H; cbn in *; try lia. rewrite IH; lia. Qed.

Lemma sample_eq dim s res : length (sp_axes s) = length res -> Forall (fun r => 2 <= r) res ->
  sample dim s res = Some (map (point_at dim s res) (f_indices res)).
Proof.
  intros L F. unfold sample. set (lo := map ax_lower (sp_axes s)). set (up := map ax_upper (sp_axes s)).
  assert (map Z.to_nat (map Z.of_nat res) = res) as Er. { rewrite map_map. rewrite <- map_id. apply map_ext. intros. lia. }
  destruct (grid_setup (lo ++ up) (map Z.of_nat res)) as [g|] eqn:G.
  - cbn [option_map]. f_equal. pose proof (grid_setup_spec _ _ _ G) as (E1 & E2 & E3 & _). rewrite Er in E1.
    rewrite grid_size_prodn, E1. unfold f_indices. rewrite map_map. apply map_ext_in. intros id Hid. apply in_seq in Hid.
    unfold point_at. f_equal. f_equal. apply (nth_ext _ _ 0%Qc 0%Qc).
    + unfold id_to_grid_point. rewrite id_to_point_length by auto. rewrite parameters_length; rewrite ?length_digits; auto. now rewrite E1.
    + intros k Hk. unfold id_to_grid_point in Hk. rewrite id_to_point_length, E1 in Hk by auto.
      rewrite (grid_point_coordinate _ _ g id k G) by (now rewrite map_length). rewrite parameters_nth by (rewrite ?length_digits; auto).
      unfold sample_coordinate. rewrite Er, !map_length.
      rewrite app_nth1 by (unfold lo; rewrite map_length; lia).
      rewrite (app_nth2 lo up) by (unfold lo; rewrite map_length; lia). replace (k + length res - length lo) with k by (unfold lo; rewrite map_length; lia).
      fold lo up. f_equal. f_equal. f_equal. symmetry. apply axis_position_digits. exact Hk.
  - exfalso. apply grid_setup_error in G. apply Exists_exists in G as (z & Hz & Hlt). apply in_map_iff in Hz as (r & <- & Hr). rewrite Forall_forall in F. specialize (F r Hr). lia.
Qed.

(** ** Meshes after each other *)
Lemma concat_placed {A} (f : A -> list Qc) (ms : list (list A * list (list nat))) (d : A) :
  Forall (fun m => forall q v, In q (snd m) -> In v q -> v < length (fst m)) ms ->
  forall pre, exists F, concat_pmeshes (length pre) (map (fun m => (map f (fst m), snd m)) ms) = (map f (concat (map fst ms)), F) /\
    map (map (fun v => nth v (pre ++ concat (map fst ms)) d)) F = concat (map (fun m => map (map (fun v => nth v (fst m) d)) (snd m)) ms) /\
    forall q v, In q F -> In v q -> v < length (pre ++ concat (map fst ms)).
Proof.
  induction 1 as [|[P Q] ms B FB IH]; intros pre; cbn [map concat_pmeshes fst snd concat].
  - exists []. split; [reflexivity|]. split; [reflexivity|]. easy.
  - cbn [fst snd] in B. destruct (IH (pre ++ P)) as (F & E & M & Bd). rewrite app_length in E. rewrite map_length, E.
    rewrite <- app_assoc in M, Bd. exists (map (move (length pre)) Q ++ F). rewrite map_app. split; [reflexivity|]. split.
    + rewrite map_app, M. f_equal. rewrite map_map. apply map_ext_in. intros q Hq. unfold move. rewrite map_map. apply map_ext_in. intros v Hv.
      specialize (B q v Hq Hv). rewrite app_nth2 by lia. replace (v + length pre - length pre) with v by lia. now rewrite app_nth1.
    + intros q v Hq Hv. apply in_app_iff in Hq as [Hq|Hq]; [|now apply (Bd q)]. apply in_map_iff in Hq as (q' & <- & Hq). apply in_map_iff in Hv as (w & <- & Hw).
      specialize (B q' w Hq Hw). rewrite !app_length. lia.
Qed.
Lemma repeated_concat n k F : forall ms : list pmesh, length ms = n -> Forall (fun m => length (fst m) = k /\ snd m = F) ms ->
  (concat (map fst ms), repeated n k F) = concat_pmeshes 0 ms.
Proof.
  intros ms L H. unfold repeated.
  assert (forall b, snd (concat_pmeshes (b * k) ms) = concat (map (fun i => map (move (i * k)) F) (seq b n)) /\ fst (concat_pmeshes (b * k) ms) = concat (map fst ms)) as G.
  { revert n L. induction H as [|[V Q] ms (Lv & Eq) H IH]; intros [|n] L b; cbn in L; try lia; [now split|]. cbn [concat_pmeshes seq map concat fst snd] in *.
    destruct (IH n ltac:(lia) (S b)) as [I1 I2]. rewrite Lv. replace (b * k + k) with (S b * k) by lia.
    destruct (concat_pmeshes (S b * k) ms) as [vs fs]. cbn [fst snd] in *. subst. split; reflexivity. }
  destruct (G 0) as [G1 G2]. rewrite Nat.mul_0_l in *. destruct (concat_pmeshes 0 ms) as [vs fs]. cbn [fst snd] in *. now rewrite G1, G2.
Qed.

(** ** Boundaries *)
Lemma parameters_insert k : forall axes res ix a v, length axes = length res -> nth_error axes k = Some a -> length ix + 1 = length res ->
  insert_at k (ax_lower a + (ax_upper a - ax_lower a) / inj (nth k res 0%nat - 1) * inj v)%Qc (parameters (remove_at k axes) (remove_at k res) ix) = parameters axes res (insert_at k v ix).
Proof.
  unfold insert_at, remove_at.
  induction k as [|k IH]; intros [|b axes] [|r res] ix a v L E Lx; cbn in L; try discriminate.
  - injection E as ->. cbn [firstn skipn app nth parameters]. destruct ix; reflexivity.
  - destruct ix as [|i ix].
    + cbn in Lx. destruct res; cbn in *; [|lia]. destruct axes; [destruct k; discriminate|cbn in L; lia].
    + cbn [firstn skipn app nth parameters]. f_equal. apply IH; auto; cbn in *; lia.
Qed.
