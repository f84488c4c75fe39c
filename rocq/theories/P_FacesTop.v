(** The meshes of extract.faces and extract.volumes. *)
From Coq Require Import List Arith ZArith Bool Lia QArith Qcanon.
From Verif Require Import Base BaseRadix BaseQc S_Grid S_Spline S_Value S_Faces M_Grid M_Extract M_Faces P_Knots P_Grid P_Extract P_Faces P_FacesClosed.
Import ListNotations.
Local Open Scope list_scope.
Local Open Scope nat_scope.

Lemma square_units : Forall (unit_offset 2) square_corners.
Proof. repeat constructor. Qed.
Lemma cube_units : Forall (unit_offset 3) cube_corners.
Proof. repeat constructor. Qed.
Lemma segment_units : Forall (unit_offset 1) segment_ends.
Proof. repeat constructor. Qed.

(** One patch. *)
Lemma in_cells res c : In c (f_indices (map pred res)) <-> cell res c.
Proof. rewrite in_f_indices. symmetry. apply cell_digits. Qed.
Lemma in_positions res ix : In ix (f_indices res) <-> position res ix.
Proof. rewrite in_f_indices. unfold position, valid_digits. split; intros H; (induction H; constructor; auto). Qed.

Lemma patch_mesh dim s res corners : length (sp_axes s) = length res -> Forall (fun r => 2 <= r) res ->
  Forall (unit_offset (length res)) corners -> hd_error corners = Some (repeat 0 (length res)) ->
  exists P F, sampled_mesh dim (connect corners res) s res = Some (map (point_at dim s res) P, F) /\
    NoDup P /\ (forall ix, In ix P <-> position res ix) /\ Forall (Forall (fun v => v < length P)) F /\
    NoDup (placed P F) /\ forall q, In q (placed P F) <-> exists c, cell res c /\ q = map (shifted c) corners.
Proof.
  intros L H U Hd. exists (f_indices res), (connect corners res). unfold sampled_mesh. rewrite sample_eq by auto. split; [reflexivity|].
  split; [apply NoDup_f_indices|]. split; [apply in_positions|]. split.
  { rewrite Forall_forall. intros f Hf. rewrite Forall_forall. intros v Hv. unfold f_indices. rewrite map_length, seq_length. now apply (connect_bound corners res f). }
  rewrite connect_placed by auto. split.
  - apply NoDup_map_inv_dom; [|apply NoDup_f_indices]. intros c c' Hc Hc' E. apply in_cells, cell_length in Hc. apply in_cells, cell_length in Hc'.
    destruct corners as [|o corners]; [easy|]. injection Hd as ->. cbn [map] in E. injection E as E _. now rewrite !shifted_zero in E.
  - intros q. rewrite in_map_iff. split; intros (c & H1 & H2).
    + exists c. split; [now apply in_cells|now symmetry].
    + exists c. split; [now symmetry|now apply in_cells].
Qed.

(** The boundaries of a volume. *)
Lemma all_some_rel {A B} (f : A -> option B) (R : A -> B -> Prop) l : (forall x, In x l -> exists y, f x = Some y /\ R x y) -> exists ys, all_some (map f l) = Some ys /\ Forall2 R l ys.
Proof.
  induction l as [|x l IH]; intros H; [exists []; split; [reflexivity|constructor]|]. destruct (H x ltac:(now left)) as (y & E & Hr).
  destruct IH as (ys & Ey & F); [intros; apply H; now right|]. exists (y :: ys). cbn [map all_some]. rewrite E, Ey. split; [reflexivity|now constructor].
Qed.

Definition plane (res : list nat) (i : nat) : nat := if i mod 2 =? 0 then 0 else nth (i / 2) res 0 - 1.
Definition boundary_mesh (res : list nat) (i : nat) : list (list nat) * list (list nat) :=
  (map (insert_at (i / 2) (plane res i)) (f_indices (remove_at (i / 2) res)), make_quad_faces (remove_at (i / 2) res)).
Definition boundary_like (dim : nat) (s : spline) (res : list nat) (i : nat) (b : spline) : Prop :=
  sample dim b (remove_at (i / 2) res) = Some (map (point_at dim s res) (fst (boundary_mesh res i))).

Lemma remove_at_length {A} k (l : list A) : k < length l -> length (remove_at k l) + 1 = length l.
Proof. intros H. unfold remove_at. rewrite app_length, firstn_length, skipn_length. lia. Qed.
Lemma remove_at_Forall {A} (P : A -> Prop) k l : Forall P l -> Forall P (remove_at k l).
Proof. intros H. unfold remove_at. revert l H. induction k as [|k IH]; intros [|x l] H; cbn; auto; inversion H; subst; auto. constructor; auto. now apply IH. Qed.

Lemma boundaries_like dim s res : sp_wf s -> length (sp_axes s) = 3 -> Forall ax_clamped (sp_axes s) -> length res = 3 -> Forall (fun r => 2 <= r) res ->
  exists bs, boundaries s = Some bs /\ Forall2 (boundary_like dim s res) (seq 0 6) bs.
Proof.
  intros W La Cl Lr Hr. unfold boundaries, extract_boundaries. rewrite La. change (2 * 3) with 6. rewrite map_map. apply all_some_rel.
  intros i Hi. apply in_seq in Hi. assert (i / 2 < 3) as Hk by (apply Nat.div_lt_upper_bound; lia).
  destruct (nth_error (sp_axes s) (i / 2)) as [a|] eqn:Ea; [|apply nth_error_None in Ea; lia].
  assert (ax_clamped a) as Ca by (rewrite Forall_forall in Cl; apply Cl, (nth_error_In _ _ Ea)).
  destruct (boundary_traces s (i / 2) a (negb (i mod 2 =? 0)) W ltac:(lia) Ea Ca) as (b & Eb & Axb & _ & _ & V).
  assert (2 * (i / 2) + Nat.b2n (negb (i mod 2 =? 0)) = i) as Ei.
  { pose proof (Nat.div_mod i 2 ltac:(lia)) as D. pose proof (Nat.mod_upper_bound i 2 ltac:(lia)). destruct (Nat.eqb_spec (i mod 2) 0); cbn [negb Nat.b2n]; lia. }
  rewrite Ei in Eb. exists b. split; [now rewrite Eb|]. unfold boundary_like.
  assert (length (remove_at (i / 2) res) + 1 = 3) as L2 by (rewrite remove_at_length; lia).
  assert (length (remove_at (i / 2) (sp_axes s)) + 1 = 3) as L3 by (rewrite remove_at_length; lia).
  rewrite sample_eq; [|rewrite Axb; lia|now apply remove_at_Forall]. f_equal. unfold boundary_mesh. cbn [fst]. rewrite map_map. apply map_ext_in. intros ix Hix.
  apply in_f_indices, BaseRadix.valid_length in Hix. unfold point_at. apply map_ext. intros d. rewrite V by (rewrite Axb, parameters_length; lia). f_equal. rewrite Axb.
  rewrite <- (parameters_insert (i / 2) (sp_axes s) res ix a) by lia || auto. f_equal. unfold plane.
  assert (2 <= nth (i / 2) res 0) as Hn by (rewrite Forall_forall in Hr; apply Hr, nth_In; lia).
  destruct (i mod 2 =? 0); cbn [negb].
  - change (inj 0) with 0%Qc. ring.
  - assert (inj (nth (i / 2) res 0 - 1) <> 0%Qc) as N by (intros E; pose proof (BaseQc.inj_pos (nth (i / 2) res 0 - 1) ltac:(lia)) as Q; rewrite E in Q; now apply Qclt_irrefl in Q || apply (Qclt_not_eq _ _ Q); reflexivity). 
    field. exact N.
Qed.

(** Squares of the six boundaries. *)
Lemma boundary_placed res i : length res = 3 -> i < 6 ->
  placed (fst (boundary_mesh res i)) (snd (boundary_mesh res i)) = map (square (i / 2) (plane res i)) (f_indices (map pred (remove_at (i / 2) res))).
Proof.
  intros L Hi. assert (i / 2 < 3) as Hk by (apply Nat.div_lt_upper_bound; lia). assert (length (remove_at (i / 2) res) = 2) as L2 by (pose proof (remove_at_length (i / 2) res); lia).
  unfold boundary_mesh. cbn [fst snd]. set (r := remove_at (i / 2) res) in *. set (g := insert_at (i / 2) (plane res i)).
  assert (Forall (unit_offset (length r)) square_corners) as U by (rewrite L2; apply square_units).
  transitivity (map (map g) (placed (f_indices r) (connect square_corners r))).
  - unfold placed. rewrite map_map. apply map_ext_in. intros f Hf. rewrite map_map. apply map_ext_in. intros v Hv.
    pose proof (connect_bound square_corners r f v U Hf Hv) as B. rewrite (nth_indep _ [] (g [])) by (unfold f_indices; rewrite !map_length, seq_length; exact B). now rewrite map_nth.
  - rewrite connect_placed by exact U. rewrite map_map. apply map_ext. intros c. unfold square. now rewrite map_map.
Qed.
Lemma boundary_bound res i q v : length res = 3 -> i < 6 -> In q (snd (boundary_mesh res i)) -> In v q -> v < length (fst (boundary_mesh res i)).
Proof.
  intros L Hi Hq Hv. assert (i / 2 < 3) as Hk by (apply Nat.div_lt_upper_bound; lia). assert (length (remove_at (i / 2) res) = 2) as L2 by (pose proof (remove_at_length (i / 2) res); lia).
  unfold boundary_mesh in *. cbn [fst snd] in *. unfold f_indices. rewrite !map_length, seq_length. apply (connect_bound square_corners _ q); auto. rewrite L2. apply square_units.
Qed.

Lemma NoDup_pairs {A B} (g : A -> list B) l : NoDup l -> (forall i, In i l -> NoDup (g i)) -> NoDup (concat (map (fun i => map (pair i) (g i)) l)).
Proof.
  induction 1 as [|i l Ni N IH]; intros H; cbn [map concat]; [constructor|]. apply NoDup_app_iff. split; [|split].
  - apply NoDup_map_inv_dom; [|apply H; now left]. now intros x y _ _ [= ->].
  - apply IH. intros; apply H; now right.
  - intros p Hp Hq. apply in_map_iff in Hp as (x & <- & _). apply in_concat in Hq as (m & Hm & Hx). apply in_map_iff in Hm as (j & <- & Hj).
    apply in_map_iff in Hx as (z & Ez & _). injection Ez as -> _. contradiction.
Qed.

Definition surface_list (res : list nat) : list (list (list nat)) :=
  concat (map (fun i => map (square (i / 2) (plane res i)) (f_indices (map pred (remove_at (i / 2) res)))) (seq 0 6)).

Ltac dm := unfold plane in *; try change (0 / 2) with 0 in *; try change (1 / 2) with 0 in *; try change (2 / 2) with 1 in *; try change (3 / 2) with 1 in *; try change (4 / 2) with 2 in *; try change (5 / 2) with 2 in *;
  try change (0 mod 2) with 0 in *; try change (1 mod 2) with 1 in *; try change (2 mod 2) with 0 in *; try change (3 mod 2) with 1 in *; try change (4 mod 2) with 0 in *; try change (5 mod 2) with 1 in *.
Lemma in_surface_list res q : length res = 3 -> In q (surface_list res) <-> surface_square res q.
Proof.
  intros L. unfold surface_list, surface_square, side. rewrite in_concat. split.
  - intros (m & Hm & Hq). apply in_map_iff in Hm as (i & <- & Hi). apply in_seq in Hi. apply in_map_iff in Hq as (c & <- & Hc).
    exists (i / 2), (plane res i), c. split; [split|split; [now apply in_cells|reflexivity]].
    + rewrite L. apply Nat.div_lt_upper_bound; lia.
    + unfold plane. destruct (i mod 2 =? 0); auto.
  - intros (k & v & c & (Hk & Hv) & Hc & ->). rewrite L in Hk.
    destruct Hv as [->| ->].
    + exists (map (square k 0) (f_indices (map pred (remove_at k res)))). split; [|now apply in_map, in_cells]. apply in_map_iff. exists (2 * k). split; [|apply in_seq; lia].
      unfold plane. destruct k as [|[|[|k]]]; [reflexivity..|lia].
    + exists (map (square k (nth k res 0 - 1)) (f_indices (map pred (remove_at k res)))). split; [|now apply in_map, in_cells]. apply in_map_iff. exists (2 * k + 1). split; [|apply in_seq; lia].
      unfold plane. destruct k as [|[|[|k]]]; [reflexivity..|lia].
Qed.
Lemma surface_list_nodup n0 n1 n2 : 2 <= n0 -> 2 <= n1 -> 2 <= n2 -> NoDup (surface_list [n0; n1; n2]).
Proof.
  intros N0 N1 N2. set (res := [n0; n1; n2]). unfold surface_list.
  assert (concat (map (fun i => map (square (i / 2) (plane res i)) (f_indices (map pred (remove_at (i / 2) res)))) (seq 0 6)) =
    map (fun ic => square (fst ic / 2) (plane res (fst ic)) (snd ic)) (concat (map (fun i => map (pair i) (f_indices (map pred (remove_at (i / 2) res)))) (seq 0 6)))) as ->.
  { rewrite concat_map, map_map. f_equal. apply map_ext. intros i. now rewrite map_map. }
  apply NoDup_map_inv_dom.
  - assert (forall i c, In (i, c) (concat (map (fun i => map (pair i) (f_indices (map pred (remove_at (i / 2) res)))) (seq 0 6))) -> i < 6 /\ exists a b, c = [a; b] /\ on_box n0 n1 n2 (i / 2) (plane res i) a b) as G.
    { intros i c H. apply in_concat in H as (m & Hm & H). apply in_map_iff in Hm as (i' & <- & Hi). apply in_map_iff in H as (c' & E & Hc). injection E as -> ->. apply in_seq in Hi. split; [lia|].
      apply in_cells in Hc. destruct i as [|[|[|[|[|[|i]]]]]]; [| | | | | |lia]; dm; cbn in Hc;
      inversion Hc as [|? a ? ? A Hc' E1 E2]; inversion Hc' as [|? b ? ? B Hc'' E3 E4]; inversion Hc''; subst; exists a, b; (split; [reflexivity|]); cbn; lia. }
    intros [i c] [i' c'] H H' E. apply G in H as (Hi & a & b & -> & Hb). apply G in H' as (Hi' & a' & b' & -> & Hb'). cbn [fst snd] in E.
    destruct (square_inj n0 n1 n2 _ _ _ _ _ _ _ _ Hb Hb' E) as (E1 & E2 & -> & ->). f_equal.
    destruct i as [|[|[|[|[|[|i]]]]]]; [| | | | | |lia]; (destruct i' as [|[|[|[|[|[|i']]]]]]; [| | | | | |lia]); try reflexivity; dm; cbn in E1, E2; lia.
  - apply NoDup_pairs; [apply seq_NoDup|]. intros. apply NoDup_f_indices.
Qed.

(** All six boundaries together. *)
Lemma six_boundaries dim s res : length res = 3 -> 
  exists F, concat_pmeshes 0 (map (fun i => (map (point_at dim s res) (fst (boundary_mesh res i)), snd (boundary_mesh res i))) (seq 0 6)) =
      (map (point_at dim s res) (concat (map (fun i => fst (boundary_mesh res i)) (seq 0 6))), F) /\
    placed (concat (map (fun i => fst (boundary_mesh res i)) (seq 0 6))) F = surface_list res /\
    Forall (Forall (fun v => v < length (concat (map (fun i => fst (boundary_mesh res i)) (seq 0 6))))) F.
Proof.
  intros L. destruct (concat_placed (point_at dim s res) (map (boundary_mesh res) (seq 0 6)) []) with (pre := @nil (list nat)) as (F & E & M & B).
  { rewrite Forall_forall. intros m Hm q v Hq Hv. apply in_map_iff in Hm as (i & <- & Hi). apply in_seq in Hi. apply (boundary_bound res i q v); auto; lia. }
  rewrite !map_map in *. cbn [length app] in *. exists F. split; [exact E|]. split.
  - unfold placed. rewrite M. unfold surface_list. f_equal. apply map_ext_in. intros i Hi. apply in_seq in Hi. apply boundary_placed; auto; lia.
  - rewrite Forall_forall. intros q Hq. rewrite Forall_forall. intros v Hv. now apply (B q).
Qed.

Lemma boundary_positions res i ix : length res = 3 -> i < 6 -> Forall (fun r => 2 <= r) res -> In ix (fst (boundary_mesh res i)) -> position res ix.
Proof.
  intros L Hi Hr H. destruct res as [|n0 [|n1 [|n2 [|]]]]; try discriminate. inversion Hr as [|? ? N0 Hr1]; inversion Hr1 as [|? ? N1 Hr2]; inversion Hr2 as [|? ? N2 _]; subst.
  unfold boundary_mesh in H. cbn [fst] in H. apply in_map_iff in H as (c & <- & Hc). apply in_positions in Hc.
  destruct i as [|[|[|[|[|[|i]]]]]]; [| | | | | |lia]; dm; cbn in Hc; inversion Hc as [|? a ? ? A Hc' E1 E2]; inversion Hc' as [|? b ? ? B Hc'' E3 E4]; inversion Hc''; subst;
  cbn; repeat constructor; lia.
Qed.

Lemma volume_faces dim s res : sp_wf s -> length (sp_axes s) = 3 -> Forall ax_clamped (sp_axes s) -> length res = 3 -> Forall (fun r => 2 <= r) res ->
  exists P F, faces dim s res = Some (map (point_at dim s res) P, F) /\ Forall (position res) P /\ Forall (Forall (fun v => v < length P)) F /\
    NoDup (placed P F) /\ forall q, In q (placed P F) <-> surface_square res q.
Proof.
  intros W La Cl Lr Hr. destruct (boundaries_like dim s res W La Cl Lr Hr) as (bs & Eb & Hb).
  destruct (six_boundaries dim s res Lr) as (F & EF & PF & BF).
  exists (concat (map (fun i => fst (boundary_mesh res i)) (seq 0 6))), F. split; [|split; [|split; [exact BF|rewrite PF; split]]].
  - destruct res as [|n0 [|n1 [|n2 [|]]]]; try discriminate. unfold faces. rewrite La. destruct ((n0 =? n1) && (n1 =? n2)) eqn:U.
    + apply andb_prop in U as [U1 U2]. apply Nat.eqb_eq in U1, U2. subst n1 n2. rewrite !Nat.max_id. unfold uniform_3d_faces. rewrite Eb.
      assert (forall i, In i (seq 0 6) -> remove_at (i / 2) [n0; n0; n0] = [n0; n0]) as Hrm by (intros i Hi; cbn in Hi; intuition (subst; reflexivity)).
      assert (sample_all dim bs [n0; n0] = Some (concat (map (fun i => map (point_at dim s [n0; n0; n0]) (fst (boundary_mesh [n0; n0; n0] i))) (seq 0 6)))) as ->.
      { unfold sample_all. assert (forall l, (forall i, In i l -> In i (seq 0 6)) -> forall bs, Forall2 (boundary_like dim s [n0; n0; n0]) l bs ->
          all_some (map (fun b => sample dim b [n0; n0]) bs) = Some (map (fun i => map (point_at dim s [n0; n0; n0]) (fst (boundary_mesh [n0; n0; n0] i))) l)) as G.
        { clear -Hrm. intros l Hl bs H. revert Hl. induction H as [|i b l bs Hb H IH]; intros Hl; [reflexivity|]. cbn [map all_some]. unfold boundary_like in Hb. rewrite (Hrm i) in Hb by (apply Hl; now left). rewrite Hb.
          rewrite IH; [reflexivity|]. intros; apply Hl; now right. }
        rewrite (G (seq 0 6)) by auto. reflexivity. }
      cbn [option_map]. f_equal. rewrite <- (Forall2_len _ _ _ Hb), seq_length. rewrite <- EF.
      set (ms := map (fun i => (map (point_at dim s [n0; n0; n0]) (fst (boundary_mesh [n0; n0; n0] i)), snd (boundary_mesh [n0; n0; n0] i))) (seq 0 6)).
      rewrite <- (repeated_concat 6 (n0 ^ 2) (make_quad_faces [n0; n0]) ms).
      * reflexivity.
      * reflexivity.
      * unfold ms. rewrite Forall_forall. intros m Hm. apply in_map_iff in Hm as (i & <- & Hi). cbn [fst snd]. unfold boundary_mesh. cbn [fst snd]. rewrite (Hrm i Hi). split; [|reflexivity].
        unfold f_indices. rewrite !map_length, seq_length. cbn. lia.
    + rewrite Eb. rewrite <- (Forall2_len _ _ _ Hb), seq_length.
      assert (forall l bs, Forall2 (boundary_like dim s [n0; n1; n2]) l bs ->
          all_some (map (fun ib => sampled_mesh dim (make_quad_faces (remove_at (fst ib / 2) [n0; n1; n2])) (snd ib) (remove_at (fst ib / 2) [n0; n1; n2])) (combine l bs)) =
          Some (map (fun i => (map (point_at dim s [n0; n1; n2]) (fst (boundary_mesh [n0; n1; n2] i)), snd (boundary_mesh [n0; n1; n2] i))) l)) as G.
      { clear. intros l bs H. induction H as [|i b l bs Hb H IH]; [reflexivity|]. cbn [combine map all_some fst snd]. unfold sampled_mesh at 1. rewrite Hb. cbn [option_map]. now rewrite IH. }
      rewrite (G _ _ Hb). cbn [option_map]. f_equal. exact EF.
  - rewrite Forall_forall. intros ix H. apply in_concat in H as (m & Hm & Hix). apply in_map_iff in Hm as (i & <- & Hi). apply in_seq in Hi. apply (boundary_positions res i); auto; lia.
  - destruct res as [|n0 [|n1 [|n2 [|]]]]; try discriminate. inversion Hr as [|? ? N0 Hr1]; inversion Hr1 as [|? ? N1 Hr2]; inversion Hr2 as [|? ? N2 _]; subst. now apply surface_list_nodup.
  - intros q. now apply in_surface_list.
Qed.

(** Several patches, sampled alike: vertex = patch and position. *)
Lemma patches_mesh dim patches res corners : Forall (fun s => length (sp_axes s) = length res) patches -> Forall (fun r => 2 <= r) res -> Forall (unit_offset (length res)) corners ->
  hd_error corners = Some (repeat 0 (length res)) ->
  exists P F, option_map (fun v => (v, repeated (length patches) (prodn res) (connect corners res))) (sample_all dim patches res) = Some (map (patch_point dim patches res) P, F) /\
    NoDup P /\ (forall p ix, In (p, ix) P <-> p < length patches /\ position res ix) /\ Forall (Forall (fun v => v < length P)) F /\
    NoDup (map (map (fun v => nth v P (0, []))) F) /\
    forall q, In q (map (map (fun v => nth v P (0, []))) F) <-> exists p c, p < length patches /\ cell res c /\ q = map (fun o => (p, shifted c o)) corners.
Proof.
  intros La Hr U Hd. set (n := length patches). set (g := fun p : nat => (map (pair p) (f_indices res), connect corners res)).
  assert (forall (p : nat) q v, In q (snd (g p)) -> In v q -> v < length (fst (g p))) as Bg.
  { intros p q v Hq Hv. unfold g in *. cbn [fst snd] in *. unfold f_indices. rewrite !map_length, seq_length. now apply (connect_bound corners res q). }
  destruct (concat_placed (patch_point dim patches res) (map g (seq 0 n)) (0, [])) with (pre := @nil (nat * list nat)) as (F & E & M & B).
  { rewrite Forall_forall. intros m Hm. apply in_map_iff in Hm as (p & <- & _). apply Bg. }
  rewrite !map_map in *. cbn [length app] in *. set (P := concat (map (fun p => fst (g p)) (seq 0 n))) in *. exists P, F.
  assert (sample_all dim patches res = Some (concat (map (fun p => map (patch_point dim patches res) (fst (g p))) (seq 0 n)))) as ->.
  { unfold sample_all. cut (all_some (map (fun b => sample dim b res) patches) = Some (map (fun p => map (patch_point dim patches res) (fst (g p))) (seq 0 n))); [now intros ->|].
    assert (forall pre l, patches = pre ++ l -> all_some (map (fun b => sample dim b res) l) = Some (map (fun p => map (patch_point dim patches res) (fst (g p))) (seq (length pre) (length l)))) as G.
    { intros pre l. revert pre. induction l as [|s l IH]; intros pre Ep; [reflexivity|]. cbn [map all_some length seq].
      rewrite sample_eq; auto; [|rewrite Forall_forall in La; apply La; rewrite Ep; apply in_or_app; right; now left].
      specialize (IH (pre ++ [s])). rewrite app_length in IH. cbn [length] in IH. rewrite Nat.add_1_r in IH. rewrite IH by (now rewrite <- app_assoc).
      f_equal. f_equal. unfold g. cbn [fst]. rewrite map_map. apply map_ext. intros ix. unfold patch_point. cbn [fst snd]. rewrite Ep, nth_error_app2, Nat.sub_diag by lia. reflexivity. }
    exact (G [] patches eq_refl). }
  assert (forall p, map (map (fun v => nth v (fst (g p)) (0, []))) (snd (g p)) = map (fun c => map (fun o => (p, shifted c o)) corners) (f_indices (map pred res))) as Eg.
    { intros p. unfold g. cbn [fst snd]. transitivity (map (map (pair p)) (placed (f_indices res) (connect corners res))).
      - unfold placed. rewrite map_map. apply map_ext_in. intros f Hf. rewrite map_map. apply map_ext_in. intros v Hv. pose proof (connect_bound corners res f v U Hf Hv) as Bv.
        rewrite (nth_indep _ (0, []) (p, [])) by (unfold f_indices; rewrite !map_length, seq_length; exact Bv). now rewrite (map_nth (pair p)).
      - rewrite connect_placed by exact U. rewrite map_map. apply map_ext. intros c. now rewrite map_map. }
  split; [|split; [|split; [|split; [|split]]]].
  - cbn [option_map]. f_equal. rewrite <- E. rewrite <- (repeated_concat n (prodn res) (connect corners res)).
    + rewrite map_map. reflexivity.
    + now rewrite map_length, seq_length.
    + rewrite Forall_forall. intros m Hm. apply in_map_iff in Hm as (p & <- & _). cbn [fst snd]. unfold g. cbn [fst snd]. split; [|reflexivity]. unfold f_indices. now rewrite !map_length, seq_length.
  - unfold P, g. cbn [fst]. apply NoDup_pairs; [apply seq_NoDup|]. intros. apply NoDup_f_indices.
  - intros p ix. unfold P. rewrite in_concat. split.
    + intros (m & Hm & H). apply in_map_iff in Hm as (p' & <- & Hp). apply in_seq in Hp. unfold g in H. cbn [fst] in H. apply in_map_iff in H as (ix' & E' & H). injection E' as -> ->. split; [lia|now apply in_positions].
    + intros (Hp & H). exists (fst (g p)). split; [apply in_map_iff; exists p; split; [reflexivity|apply in_seq; lia]|]. unfold g. cbn [fst]. apply in_map_iff. exists ix. split; [reflexivity|now apply in_positions].
  - rewrite Forall_forall. intros q Hq. rewrite Forall_forall. intros v Hv. now apply (B q).
  - rewrite M. set (h := fun pc : nat * list nat => map (fun o => (fst pc, shifted (snd pc) o)) corners).
    assert (concat (map (fun x => map (map (fun v => nth v (fst (g x)) (0, []))) (snd (g x))) (seq 0 n)) = map h (concat (map (fun p => map (pair p) (f_indices (map pred res))) (seq 0 n)))) as ->.
    { rewrite concat_map, map_map. f_equal. apply map_ext. intros p. rewrite Eg, map_map. reflexivity. }
    apply NoDup_map_inv_dom; [|apply NoDup_pairs; [apply seq_NoDup|intros; apply NoDup_f_indices]].
    intros [p c] [p' c'] H H' Eh. unfold h in Eh. cbn [fst snd] in Eh. destruct corners as [|o corners]; [easy|]. injection Hd as ->. cbn [map] in Eh. injection Eh as -> Ec _.
    assert (forall p c, In (p, c) (concat (map (fun p => map (pair p) (f_indices (map pred res))) (seq 0 n))) -> length c = length res) as Lc.
    { intros p0 c0 H0. apply in_concat in H0 as (m & Hm & H0). apply in_map_iff in Hm as (p1 & <- & _). apply in_map_iff in H0 as (c1 & E1 & H0). injection E1 as -> ->. now apply cell_length, in_cells. }
    rewrite !shifted_zero in Ec by (eapply Lc; eauto). now subst.
  - intros q. rewrite M. rewrite in_concat.
    split.
    + intros (m & Hm & Hq). apply in_map_iff in Hm as (p & <- & Hp). apply in_seq in Hp. rewrite Eg in Hq. apply in_map_iff in Hq as (c & <- & Hc). exists p, c. split; [lia|]. split; [now apply in_cells|reflexivity].
    + intros (p & c & Hp & Hc & ->). exists (map (fun c => map (fun o => (p, shifted c o)) corners) (f_indices (map pred res))). split.
      * apply in_map_iff. exists p. split; [apply Eg|apply in_seq; lia].
      * apply in_map_iff. exists c. split; [reflexivity|now apply in_cells].
Qed.

(** Control meshes. *)
Lemma control_mesh_cells s : sp_wf s -> 1 <= length (sp_axes s) <= 3 ->
  exists F, control_mesh s = Some (sp_cps s, F) /\ NoDup F /\ 
    forall f, In f F <-> exists c, cell (sp_res s) c /\ f = map (fun o => flat_id (sp_res s) (shifted c o)) (unit_corners (length (sp_axes s))).
Proof.
  intros W L. assert (length (sp_res s) = length (sp_axes s)) as Lr by apply map_length. unfold control_mesh.
  destruct (length (sp_axes s)) as [|[|[|[|n]]]] eqn:E; try lia.
  - assert ([length (sp_cps s)] = sp_res s) as ->.
    { destruct (sp_res s) as [|r [|]] eqn:Er; try discriminate. destruct W as (_ & W & _). f_equal. rewrite W, ?Er. cbn. lia. }
    eexists. split; [reflexivity|]. split; [apply connect_nodup|intros f; apply connect_in]; rewrite Lr; (reflexivity || apply segment_units).
  - eexists. split; [reflexivity|]. split; [apply connect_nodup|intros f; apply connect_in]; rewrite Lr; (reflexivity || apply square_units).
  - eexists. split; [reflexivity|]. split; [apply connect_nodup|intros f; apply connect_in]; rewrite Lr; (reflexivity || apply cube_units).
Qed.
